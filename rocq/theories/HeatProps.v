(* HeatProps.v - C96: the time loop of heat2d.py; C97: the bordered Poisson solve of poisson2d.py. *)
From Coq Require Import ZArith List Lia Bool Arith.
From Verif Require Import Base Loops Num FoldProofs BlitzModel UniqueProofs JacobiModel JacobiSpec JacobiProofs JacobiOrthProofs JacobiQuadProofs JacobiExactProofs Nodes1DModel Nodes1DSpec Nodes1DExactProofs DenseSpec GllProofs
  MeshSpec MeshGeoProofs MeshProps MeshProofs TriModel TriSpec TriBasisProofs TriProofs TriOpProofs TriLiftProofs TriFaceProofs TriNodesProofs TriElemProofs TriGeoSpec TriGeoProofs TriSetup TriProps TriWitness Maps2DModel Maps2DSpec Maps2DProofs Maps2DProps TriMapsProofs TriMapsProps TriDGSpec TriDGProofs
  QuadInterpProofs TripletModel CscModel CscSpec CscProps CscHistProofs RKModel Line1DModel Line1DProofs SwModel SwSpec SwProofs SwSchemeProofs SwRunProofs SwProps PoissonModel PoissonSpec PoissonTripletProofs PoissonBlockProofs PoissonProofs PoissonFormProofs PoissonProps PoissonEnergySpec PoissonCoerciveProofs PoissonCoerciveProps
  CurvedSwModel CurvedSwProofs HeatModel HeatSpec LinSolve HeatProofs.
From Coq Require Import Reals Lra.
Import ListNotations.
Local Open Scope R_scope.

Section Facts.
Variables (G : R -> R) (solve : mat R -> mat R -> mat R -> outcome (mat R)) (inverse : mat R -> mat R -> outcome (mat R))
  (junk : nat -> nat -> R) (eps : R) (eig : nat -> (nat -> nat -> R) -> list R * (nat -> nat -> R)) (tol : R)
  (sort : (nat -> nat -> bool) -> list nat -> list nat) (junk1 : nat -> R) (junkn : nat -> nat)
  (N K : nat) (Vert : list R) (EToV E2E E2F : list nat) (bcType : list Z) (el : element (T := R)) (m : maps).
Hypothesis HG : poisson_grid G solve inverse junk eps eig tol sort junk1 junkn N K Vert EToV E2E E2F bcType el m.
Hypothesis HC : consistent_tags K EToV bcType.
Variable jk : nat * R.
Local Notation Np := (length (e_r el)).
Local Notation dof := (nodes el K).
Local Notation built_op b s := (poisson_of G inverse junk jk N K E2E E2F bcType el m b 0 = Ok s).
Variable splu : nat -> list (nat * nat * R) -> outcome (list R -> list R).
Hypothesis HD : direct splu.
Local Notation nv := nodal_values.

Local Lemma dof_pos : (0 < dof)%nat.
Proof. unfold nodes. destruct HG as [[HB HM HA HS Hrun Hbc] HK HP HZ]. destruct (element_ok _ _ _ _ _ _ _ _ _ _ _ _ HB) as [lr]. rewrite lr. assert (0 < length (modes N))%nat by (unfold modes; cbn; lia). nia. Qed.
Local Lemma entries_in (a : csc R) : valid a -> rows a = dof -> cols a = dof -> Forall (inD dof) (entries a).
Proof. intros V E1 E2. apply Forall_forall. intros e He. destruct (entries_rows a V e He) as (A & B). unfold inD. unfold rows, cols in *. rewrite <- E1 at 1. rewrite <- E2. split; assumption. Qed.
Section Built.
Variable s : poisson R.
Hypothesis Hs : built_op 0 s.
Local Notation M := (entry_of (MM_ s)).
Local Notation L := (entry_of (OP_ s)).
Local Notation MT := (entries (MM_ s)).
Local Notation LT := (entries (OP_ s)).
Local Lemma in_M : Forall (inD dof) MT /\ Forall (inD dof) LT.
Proof.
  assert (H : valid (OP_ s) /\ valid (MM_ s) /\ rows (MM_ s) = dof /\ cols (MM_ s) = dof /\ rows (OP_ s) = dof /\ cols (OP_ s) = dof) by (eapply (C46_shape _ _ _ _ _ _ _ _ _ _ _ _ _ _ _ _ _ _ _ HG jk 0 0); exact Hs).
  destruct H as (V1 & V2 & A & B & C & D). split; apply entries_in; assumption.
Qed.
Local Lemma M_sym i j : (i < dof)%nat -> (j < dof)%nat -> M i j = M j i.
Proof. eapply C46_mass_symmetric; [exact HG|exact Hs]. Qed.
Local Lemma L_sym i j : (i < dof)%nat -> (j < dof)%nat -> L i j = L j i.
Proof.
  intros Hi Hj. assert (H : rows (OP_ s) = dof) by (eapply (C46_shape _ _ _ _ _ _ _ _ _ _ _ _ _ _ _ _ _ _ _ HG jk 0 0); exact Hs).
  eapply C46_symmetric; [exact HG|exact Hs|exact HC| |]; rewrite H; assumption.
Qed.
Local Lemma M_pos u : (exists g, (g < dof)%nat /\ u g <> 0) -> 0 < form dof M u u.
Proof. intro H. rewrite <- quadratic_form. eapply C46_mass_positive; [exact HG|exact Hs|exact H]. Qed.
Local Lemma L_pos u : 0 <= form dof L u u.
Proof. rewrite <- quadratic_form. eapply C79_semidefinite; [exact HG|exact HC|exact Hs]. Qed.
Local Lemma euler_states kappa dt b q : backward_euler dof M L kappa dt b q <-> states dof M L (kappa * dt) b q.
Proof. unfold backward_euler, states. split; intros (A & B); (split; [exact A|]); intros j i Hi; specialize (B j i Hi); lra. Qed.

Section Run.
Variables (kappa dt : R) (B : mat R).
Hypotheses (Hc : 0 < kappa * dt) (HB : shape B Np K).
Local Notation system := (sp_add MT (sp_map (fmul (exact G) (fmul (exact G) kappa dt)) LT)).
Local Lemma system_in : Forall (inD dof) system.
Proof. unfold sp_add. apply Forall_app. split; [apply in_M|apply sp_map_in, in_M]. Qed.
Local Lemma system_times x i : (i < dof)%nat -> times dof (matrix system) x i = times dof (matrix MT) x i + kappa * dt * times dof (matrix LT) x i.
Proof.
  intro Hi. rewrite !times_bl; [|apply in_M|exact Hi|apply in_M|exact Hi|apply system_in|exact Hi]. unfold sp_add. rewrite bl_app. f_equal. apply bl_map. intro y. reflexivity.
Qed.
Local Lemma system_nonsingular : nonsingular dof (matrix system).
Proof. eapply (euler_nonsingular dof (matrix MT) (matrix LT) (kappa * dt)); [exact M_pos|exact L_pos|exact Hc|intros; apply system_times; assumption]. Qed.

(* The backward Euler states exist and are determined at every node, for every positive time step. *)
Theorem C96_states_exist b : exists q, backward_euler dof M L kappa dt b q /\
  forall q', backward_euler dof M L kappa dt b q' -> forall j i, (i < dof)%nat -> q' j i = q j i.
Proof.
  exists (be dof M L (kappa * dt) b). pose proof (be_states dof M L (kappa * dt) M_pos L_pos Hc b) as H. split; [apply euler_states, H|]. intros q' Hq'. apply euler_states in Hq'.
  exact (states_unique dof M L (kappa * dt) M_pos L_pos Hc b q' _ Hq' H).
Qed.
(* The script runs to its end for every number of passes. It writes the zero field as number 0 and then one field after every
   tenth pass; if some component of the boundary load is not zero, field j is the backward Euler state after j steps divided
   by its own greatest absolute value, which is not zero. *)
Theorem C96_output q n : backward_euler dof M L kappa dt (nv B) q ->
  exists outs, heat (exact G) splu Np K MT LT kappa dt B n = Ok ((0%nat, mkmat Np K (fun _ _ => 0)) :: outs) /\
  map fst outs = filter (fun j => j mod 10 =? 0)%nat (seq 1 n) /\
  ((exists g, (g < dof)%nat /\ nv B g <> 0) -> forall j o, In (j, o) outs ->
     shape o Np K /\ exists top, 0 < top /\ greatest dof (q j) top /\ forall i, (i < dof)%nat -> nv o i = q j i / top).
Proof.
  intro Hq. apply euler_states in Hq. destruct (HD dof system (in_range _ _ system_in) system_nonsingular) as (lu & Elu & Hlu).
  unfold heat. fold dof. rewrite (csc_matrix_ok dof MT) by apply in_M. cbn [bind]. rewrite csc_matrix_ok by apply sp_map_in, in_M. cbn [bind]. rewrite Elu. cbn [bind].
  set (p0 := mkmat Np K (fun _ _ => fofn (exact G) 0)).
  assert (H0 : reaches Np K (kappa * dt) q 0 p0). { split; [split; reflexivity|]. intros i Hi. destruct Hq as (Z & _). rewrite (Z i Hi). unfold p0, nodal_values. cbn [ment]. change (fofn (exact G) 0) with 0. ring. }
  destruct (heat_loop_ok G Np K MT LT (kappa * dt) system lu B (proj1 in_M) HB system_times Hlu system_nonsingular q Hq n dof_pos 0 p0 H0) as (outs & Eo & Fo & Ao).
  rewrite Eo. cbn [bind]. exists outs. split; [reflexivity|]. split; [exact Fo|]. intros Hb j o Hin.
  rewrite Forall_forall in Ao. destruct (Ao _ Hin) as (So & p & top & (Sp & Ap) & ((g & Hg & Eg) & Gt) & At). cbn [fst snd] in *. split; [exact So|].
  assert (Hj : (1 <= j)%nat). { assert (In j (map fst outs)) by (apply in_map_iff; exists (j, o); auto). rewrite Fo in H. apply filter_In in H. destruct H as (H & _). apply in_seq in H. lia. }
  destruct j as [|j]; [lia|]. destruct (states_move dof M L (kappa * dt) L_sym M_pos L_pos Hc (nv B) q Hq Hb j) as (h & Hh & Eh).
  assert (Htop : 0 < top).
  { pose proof (Gt h Hh) as G1. assert (nv p h <> 0) by (intro Z; apply Eh; rewrite <- (Ap h Hh), Z; ring). pose proof (Rabs_pos_lt _ H). lra. }
  exists (kappa * dt * top). split; [apply Rmult_lt_0_compat; assumption|]. split; [split|].
  - exists g. split; [exact Hg|]. rewrite <- (Ap g Hg), Rabs_mult, (Rabs_pos_eq (kappa * dt)), Eg by lra. reflexivity.
  - intros i Hi. rewrite <- (Ap i Hi), Rabs_mult, (Rabs_pos_eq (kappa * dt)) by lra. apply Rmult_le_compat_l; [lra|apply Gt, Hi].
  - intros i Hi. rewrite At, <- (Ap i Hi). assert (HZ : kappa <> 0 /\ dt <> 0) by (split; intro Z; rewrite Z in Hc; lra). field. repeat split; try apply HZ; lra.
Qed.
(* What the passes compute is not the backward Euler states: the boundary load enters without the factor kappa dt, so every
   state is 1/(kappa dt) times the backward Euler state, and differs from it after every pass unless kappa dt = 1. *)
Theorem C96_boundary_load_unscaled_refuted q lu p : backward_euler dof M L kappa dt (nv B) q ->
  splu dof system = Ok lu -> (forall i k, ment (p 0%nat) i k = 0) -> shape (p 0%nat) Np K ->
  (forall j, heat_step (exact G) Np K MT lu (flattenF B) (p j) = Ok (p (S j))) ->
  (forall j i, (i < dof)%nat -> nv (p j) i = q j i / (kappa * dt)) /\
  (kappa * dt <> 1 -> (exists g, (g < dof)%nat /\ nv B g <> 0) -> forall j, exists i, (i < dof)%nat /\ nv (p (S j)) i <> q (S j) i).
Proof.
  intros Hq El Z0 S0 Hp. apply euler_states in Hq. destruct (HD dof system (in_range _ _ system_in) system_nonsingular) as (lu' & Elu & Hlu). rewrite El in Elu. injection Elu as <-.
  assert (HR : forall j, reaches Np K (kappa * dt) q j (p j)).
  { induction j as [|j IH].
    - split; [exact S0|]. intros i Hi. destruct Hq as (Z & _). rewrite (Z i Hi). unfold nodal_values. rewrite Z0. ring.
    - exact (step_reaches G Np K MT LT (kappa * dt) system lu B (proj1 in_M) HB system_times Hlu system_nonsingular q Hq j _ _ IH (Hp j)). }
  assert (HA : forall j i, (i < dof)%nat -> nv (p j) i = q j i / (kappa * dt)) by (intros j i Hi; rewrite <- (proj2 (HR j) i Hi); field; split; intro Z; rewrite Z in Hc; lra).
  split; [exact HA|]. intros H1 Hb j. destruct (states_move dof M L (kappa * dt) L_sym M_pos L_pos Hc (nv B) q Hq Hb j) as (g & Hg & Eg). exists g. split; [exact Hg|]. intro Y.
  rewrite (HA _ g Hg) in Y. apply H1. apply (f_equal (fun z => z * (kappa * dt) / q (S j) g)) in Y. 
  replace (q (S j) g / (kappa * dt) * (kappa * dt) / q (S j) g) with 1 in Y by (field; repeat split; try exact Eg; intro Z; rewrite Z in Hc; lra). rewrite Y. field. exact Eg.
Qed.
End Run.

(* Unconditional stability: for every time step, the distance of the backward Euler states from a steady state w, in the norm
   of the mass matrix, never grows. *)
Theorem C96_stable kappa dt b q w : 0 < kappa * dt -> backward_euler dof M L kappa dt b q -> (forall i, (i < dof)%nat -> times dof L w i = b i) ->
  forall j, let d j i := q j i - w i in quadratic dof (MM_ s) (d (S j)) (d (S j)) <= quadratic dof (MM_ s) (d j) (d j).
Proof.
  intros Hc Hq Hw j d. apply euler_states in Hq. destruct Hq as (_ & Q). rewrite !quadratic_form.
  destruct (decay dof M L (kappa * dt) M_sym L_sym M_pos L_pos Hc (d j) (d (S j))) as (D & _).
  - intros i Hi. unfold d. rewrite !times_minus, (Hw i Hi). pose proof (Q j i Hi). lra.
  - pose proof (L_pos (d (S j))). nra.
Qed.
(* Connected meshes with a Dirichlet side: there is exactly one steady state, and at every node the states tend to it, with
   squared error at most C/(kappa dt j) after j steps; C does not depend on the diffusivity or the time step. *)
Theorem C96_converges b k f : connected K EToV bcType -> (k < K)%nat -> (f < 3)%nat -> dirichlet bcType k f ->
  exists w, (forall i, (i < dof)%nat -> times dof L w i = b i) /\
  (forall w', (forall i, (i < dof)%nat -> times dof L w' i = b i) -> forall i, (i < dof)%nat -> w' i = w i) /\
  forall g, (g < dof)%nat -> exists C, forall kappa dt q, 0 < kappa * dt -> backward_euler dof M L kappa dt b q ->
  forall j, (0 < j)%nat -> (q j g - w g) * (q j g - w g) <= C / (kappa * dt * INR j).
Proof.
  intros HL Hk Hf Hd.
  assert (HN : nonsingular dof L).
  { intros x Hx. destruct (zero_dec dof x) as [H|H]; [exact H|exfalso]. assert (P : 0 < quadratic dof (OP_ s) x x) by (eapply C79_definite; [exact HG|exact HC|exact Hs|exact HL|exact Hk|exact Hf|exact Hd|exact H]).
    rewrite quadratic_form, form_zero in P by exact Hx. lra. }
  destruct (solvable dof L b HN) as (w & Hw). exists w. split; [exact Hw|]. split.
  { intros w' Hw'. apply (solution_unique dof L); [exact HN|]. intros i Hi. rewrite (Hw i Hi), (Hw' i Hi). reflexivity. }
  intros g Hg. destruct (solvable dof L (delta g) HN) as (z & Hz). exists (form dof L z z * form dof M w w / 2). intros kappa dt q Hc Hq j Hj. apply euler_states in Hq.
  pose proof (states_near dof M L (kappa * dt) M_sym L_sym M_pos L_pos Hc b w q Hq Hw j) as H. set (e := fun i => q j i - w i) in *.
  pose proof (point_bound dof L L_sym L_pos z g e Hg Hz) as PB. unfold e at 1 2 in PB. eapply Rle_trans; [exact PB|].
  pose proof (lt_0_INR j Hj) as HJ. pose proof (Mnonneg dof M M_pos e) as Me. pose proof (L_pos z) as Pz. pose proof (L_pos e) as Pe.
  assert (HE : form dof L e e <= form dof M w w / 2 / (kappa * dt * INR j)).
  { apply (Rmult_le_reg_r (kappa * dt * INR j)); [apply Rmult_lt_0_compat; assumption|]. replace (form dof M w w / 2 / (kappa * dt * INR j) * (kappa * dt * INR j)) with (form dof M w w / 2) by (field; repeat split; intro Z; rewrite Z in *; lra). nra. }
  replace (form dof L z z * form dof M w w / 2 / (kappa * dt * INR j)) with (form dof L z z * (form dof M w w / 2 / (kappa * dt * INR j))) by (field; repeat split; intro Z; rewrite Z in *; lra).
  apply Rmult_le_compat_l; [exact Pz|exact HE].
Qed.
(* ---------- C97 ---------- *)
Section Bordered.
Variable f : mat R.
Hypothesis Hf : shape f Np K.
Local Notation load := (times dof M (nv f)).
Local Notation bordered := (sp_map (fopp (exact G)) (LT ++ bordering (exact G) dof)).
Local Lemma bordered_in : Forall (inD (S dof)) (LT ++ bordering (exact G) dof).
Proof. apply Forall_app. split; [apply (inD_weak dof); [lia|apply in_M]|apply bordering_in]. Qed.
Local Lemma sumn_delta_out n i : (n <= i)%nat -> sumn n (delta i) = 0.
Proof. intro H. apply sumn_zero. intros j Hj. unfold delta. destruct (Nat.eqb_spec i j); [lia|reflexivity]. Qed.
Local Lemma sumn_delta_in n i : (i < n)%nat -> sumn n (delta i) = 1.
Proof. intro H. rewrite (sumn_pick n _ i H); unfold delta; [now rewrite Nat.eqb_refl|]. intros k Hk Hne. destruct (Nat.eqb_spec i k); [congruence|reflexivity]. Qed.
Local Lemma bl_last x : bl LT (delta dof) x = 0.
Proof.
  rewrite <- (bl_value dof LT) by apply in_M. apply sumn_zero. intros i Hi. apply sumn_zero. intros j Hj. unfold delta. destruct (Nat.eqb_spec dof i); [lia|ring].
Qed.
Local Lemma bordered_times x : (forall i, (i < dof)%nat -> times (S dof) (matrix bordered) x i = - (times dof L x i + x dof)) /\ times (S dof) (matrix bordered) x dof = - sumn dof x.
Proof.
  assert (HB : forall i, (i < S dof)%nat -> times (S dof) (matrix bordered) x i = - (bl LT (delta i) x + (delta i dof * sumn dof x + sumn dof (delta i) * x dof))).
  { intros i Hi. rewrite times_bl; [|apply sp_map_in, bordered_in|exact Hi]. rewrite (bl_map _ (-1)) by (intro; cbn [exact fopp]; ring). rewrite bl_app, bordering_bl. ring. }
  split.
  - intros i Hi. rewrite HB by lia. rewrite (sumn_delta_in dof i Hi). unfold delta at 2. destruct (Nat.eqb_spec i dof); [lia|].
    change (times dof L x i) with (times dof (matrix LT) x i). rewrite times_bl; [ring|apply in_M|exact Hi].
  - rewrite HB by lia. rewrite bl_last, (sumn_delta_out dof dof (le_n _)). unfold delta. rewrite Nat.eqb_refl. ring.
Qed.
Local Lemma bordered_nonsingular : connected K EToV bcType -> nonsingular (S dof) (matrix bordered).
Proof.
  intros HL x Hx. destruct (bordered_times x) as (T1 & T2). rewrite (Hx dof) in T2 by lia.
  assert (E1 : forall i, (i < dof)%nat -> times dof L x i = - x dof) by (intros i Hi; pose proof (T1 i Hi) as H; rewrite (Hx i) in H by lia; lra).
  assert (E2 : quadratic dof (OP_ s) x x = 0).
  { rewrite quadratic_form. unfold form. rewrite (sumn_ext dof _ (fun i => - x dof * x i)) by (intros i Hi; rewrite (E1 i Hi); ring). rewrite sumn_scal. nra. }
  assert (E3 : exists c, forall g, (g < dof)%nat -> x g = c) by (eapply C79_kernel; [exact HG|exact HC|exact Hs|exact HL|exact E2]). destruct E3 as (c & Ec).
  assert (Hc : c = 0).
  { rewrite (sumn_ext dof x (fun _ => c * 1)) in T2 by (intros g Hg; rewrite (Ec g Hg); ring). rewrite sumn_scal in T2. assert (E0 : forall n, sumn n (fun _ => 1) = INR n) by (induction n as [|n IH]; [reflexivity|rewrite sumn_S, IH, S_INR; reflexivity]).
    rewrite E0 in T2. pose proof (lt_0_INR dof dof_pos). nra. }
  subst c. intros i Hi. destruct (Nat.eq_dec i dof) as [-> |Hne]; [|apply Ec; lia].
  pose proof (E1 0%nat dof_pos) as H. unfold times in H. rewrite sumn_zero in H by (intros j Hj; rewrite (Ec j Hj); ring). lra.
Qed.
(* On a connected mesh the script returns, and what it returns has nodal values adding up to zero and satisfies the discrete
   equations up to one constant added to every component. *)
Theorem C97_returns : connected K EToV bcType ->
  exists u lam, poisson2d (exact G) splu Np K MT LT f = Ok u /\ shape u Np K /\ sumn dof (nv u) = 0 /\
  forall i, (i < dof)%nat -> times dof L (nv u) i = - load i - lam.
Proof.
  intro HL. assert (Hin : Forall (inD (S dof)) bordered) by (apply sp_map_in, bordered_in).
  destruct (HD (S dof) bordered (in_range _ _ Hin) (bordered_nonsingular HL)) as (lu & Elu & Hlu).
  unfold poisson2d. fold dof. rewrite (csc_matrix_ok dof MT) by apply in_M. cbn [bind]. rewrite csc_matrix_ok by apply bordered_in. cbn [bind]. rewrite Elu. cbn [bind].
  destruct (flat_nodal Np K f Hf) as (FL & FA). destruct (sp_dot_ok G dof MT (flattenF f) (proj1 in_M) FL) as (y & Ey & Ly & Ay). rewrite Ey. cbn [bind].
  destruct (Hlu (y ++ [fofn (exact G) 0])) as (Lx & Ax); [rewrite app_length, Ly; cbn; lia|]. set (x := lu (y ++ [fofn (exact G) 0])) in *.
  assert (Hx : x <> []) by (intro Z; rewrite Z in Lx; discriminate). pose proof (app_removelast_last 0 Hx) as Ex.
  assert (Lr : length (removelast x) = dof) by (apply (f_equal (@length R)) in Ex; rewrite app_length in Ex; cbn in Ex; lia).
  destruct (reshape_nodal G Np K (removelast x) Lr) as (u & Eu & Su & Au). exists u, (nth dof x 0). split; [exact Eu|]. split; [exact Su|].
  assert (Hu : forall i, (i < dof)%nat -> nv u i = nth i x 0) by (intros i Hi; rewrite (Au i Hi); rewrite Ex at 2; rewrite app_nth1 by lia; reflexivity).
  destruct (bordered_times (fun j => nth j x 0)) as (T1 & T2). split.
  - rewrite (sumn_ext dof (nv u) (fun j => nth j x 0)) by exact Hu. rewrite (Ax dof) in T2 by lia. rewrite app_nth2, Ly, Nat.sub_diag in T2 by lia. cbn [nth] in T2. change (fofn (exact G) 0) with 0 in T2. lra.
  - intros i Hi. rewrite (times_ext dof L (nv u) (fun j => nth j x 0)) by exact Hu. pose proof (T1 i Hi) as H. rewrite (Ax i) in H by lia. rewrite app_nth1 in H by lia. rewrite (Ay i Hi) in H.
    rewrite (times_ext dof (matrix MT) _ (nv f)) in H by exact FA. change (times dof (matrix MT) (nv f) i) with (load i) in H. lra.
Qed.
Section Neumann.
Hypothesis HL : connected K EToV bcType.
Hypothesis HN : forall k g, (k < K)%nat -> (g < 3)%nat -> ~ dirichlet bcType k g.
Local Lemma ones_kernel i : (i < dof)%nat -> times dof L (fun _ => 1) i = 0.
Proof. intro Hi. unfold times. assert (H : forall c i, (i < dof)%nat -> sumn dof (fun j => L i j * c) = 0) by (eapply C47_constants_in_kernel; [exact HG|exact Hs|exact HN]). apply H. exact Hi. Qed.
Local Lemma column_sums x : sumn dof (times dof L x) = 0.
Proof.
  rewrite (sumn_ext dof _ (fun i => 1 * times dof L x i)) by (intros; ring). change (form dof L (fun _ => 1) x = 0). rewrite (form_sym _ _ _ _ L_sym). apply form_zero. exact ones_kernel.
Qed.
Local Lemma sumn_const n c : sumn n (fun _ => c) = INR n * c.
Proof. induction n as [|n IH]; [rewrite sumn_0; cbn; ring|]. rewrite sumn_S, IH, S_INR. ring. Qed.
(* With no Dirichlet side: the sum of the load, divided by the number of unknowns, is taken off every component of the load;
   u is the only vector of nodal sum zero that solves the equations so changed. *)
Theorem C97_neumann : exists u, poisson2d (exact G) splu Np K MT LT f = Ok u /\ shape u Np K /\ sumn dof (nv u) = 0 /\
  (forall i, (i < dof)%nat -> times dof L (nv u) i = - (load i - sumn dof load / INR dof)) /\
  forall z, sumn dof z = 0 -> (forall i, (i < dof)%nat -> times dof L z i = - (load i - sumn dof load / INR dof)) -> forall i, (i < dof)%nat -> z i = nv u i.
Proof.
  destruct (C97_returns HL) as (u & lam & Eu & Su & Z & Hu). pose proof (lt_0_INR dof dof_pos) as HP.
  assert (El : lam = - (sumn dof load / INR dof)).
  { pose proof (column_sums (nv u)) as H. rewrite (sumn_ext dof _ (fun i => -1 * load i + - lam)) in H by (intros i Hi; rewrite (Hu i Hi); ring). rewrite sumn_plus, sumn_scal, sumn_const in H.
    apply (Rmult_eq_reg_l (INR dof)); [|lra]. replace (INR dof * - (sumn dof load / INR dof)) with (- sumn dof load) by (field; lra). lra. }
  exists u. split; [exact Eu|]. split; [exact Su|]. split; [exact Z|]. split; [intros i Hi; rewrite (Hu i Hi), El; ring|].
  intros z Hz Ez. set (d := fun i => z i - nv u i).
  assert (Hd : forall i, (i < dof)%nat -> times dof L d i = 0) by (intros i Hi; unfold d; rewrite times_minus, (Ez i Hi), (Hu i Hi), El; ring).
  assert (Q : quadratic dof (OP_ s) d d = 0) by (rewrite quadratic_form; apply form_zero; exact Hd).
  assert (E3 : exists c, forall g, (g < dof)%nat -> d g = c) by (eapply C79_kernel; [exact HG|exact HC|exact Hs|exact HL|exact Q]). destruct E3 as (c & Ec).
  assert (Hc : INR dof * c = 0).
  { rewrite <- sumn_const. rewrite <- (sumn_ext dof d (fun _ => c)) by exact Ec. unfold d. rewrite (sumn_ext dof _ (fun i => z i + -1 * nv u i)) by (intros; ring). rewrite sumn_plus, sumn_scal, Hz, Z. ring. }
  intros i Hi. pose proof (Ec i Hi) as H. unfold d in H. assert (c = 0) by nra. lra.
Qed.
(* So the script solves the Poisson problem when the load adds up to zero: the form of the operator with every test vector is
   minus the product of the test vector with the right-hand side in the mass matrix. *)
Theorem C97_balanced u : sumn dof load = 0 -> poisson2d (exact G) splu Np K MT LT f = Ok u ->
  forall v, quadratic dof (OP_ s) v (nv u) = - quadratic dof (MM_ s) v (nv f).
Proof.
  intros Hl Eu v. destruct C97_neumann as (u' & Eu' & _ & _ & H & _). rewrite Eu in Eu'. injection Eu' as <-.
  rewrite !quadratic_form. unfold form. rewrite (sumn_ext dof _ (fun i => -1 * (v i * load i))) by (intros i Hi; rewrite (H i Hi), Hl; unfold Rdiv; ring). rewrite sumn_scal. ring.
Qed.
(* Elements of different areas: their nodes do not all carry the same mass. *)
Local Lemma mass_of_element k : (k < K)%nat ->
  sumn dof (fun g => (if (g / Np =? k)%nat then 1 else 0) * times dof M (fun _ => 1) g) = area (TriGeoSpec.corner Vert EToV k 0) (TriGeoSpec.corner Vert EToV k 1) (TriGeoSpec.corner Vert EToV k 2).
Proof.
  intro Hk. set (v := fun g => if (g / Np =? k)%nat then 1 else 0). set (c := fun e => if (e =? k)%nat then 1 else 0).
  set (U := Piecewise (fun _ _ _ => 1) (fun _ _ _ => 0) (fun _ _ _ => 0)). set (V := Piecewise (fun e _ _ => c e) (fun _ _ _ => 0) (fun _ _ _ => 0)).
  assert (HU : reads N K el (fun _ => 1) U) by apply (PoissonProps.rep_const N K el 1).
  assert (HV : reads N K el v V).
  { intros e He. split; [|split; [|split]].
    - exists [(0%nat, 0%nat, c e)]. split; [repeat constructor; cbn; lia|]. intros X Y. cbn. ring.
    - intros X Y. unfold dr_is. cbn. apply derivable_pt_lim_const.
    - intros X Y. unfold ds_is. cbn. apply derivable_pt_lim_const.
    - intros i Hi. unfold val_at. cbn. unfold v, c. rewrite (Nat.mul_comm Np e), Nat.div_add_l, Nat.div_small, Nat.add_0_r by lia. reflexivity. }
  assert (HM : mass_form K Vert EToV U V (quadratic dof (MM_ s) v (fun _ => 1))) by (eapply C46_mass; [exact HG|exact Hs|exact HU|exact HV]).
  change (form dof M v (fun _ => 1) = area (TriGeoSpec.corner Vert EToV k 0) (TriGeoSpec.corner Vert EToV k 1) (TriGeoSpec.corner Vert EToV k 2)). rewrite <- quadratic_form.
  eapply mass_unique; [exact HM|]. exists (fun e => c e * area (TriGeoSpec.corner Vert EToV e 0) (TriGeoSpec.corner Vert EToV e 1) (TriGeoSpec.corner Vert EToV e 2)). split.
  - intros e He. unfold c, U, V. cbn [val]. fold (c e). destruct (Nat.eqb_spec e k) as [-> |Hne]; unfold c.
    + rewrite Nat.eqb_refl. exists 2. split; [|cbv beta; field]. apply (tint_ext (fun _ _ => 1)); [|apply tint_one]. intros. unfold pulled. ring.
    + destruct (Nat.eqb_spec e k); [contradiction|]. exists 0. split; [|cbv beta; field]. apply (tint_ext (fun _ _ => 0)); [|apply tint_zero]. intros. unfold pulled. ring.
  - rewrite (sumn_pick K _ k Hk); unfold c; [rewrite Nat.eqb_refl; ring|]. intros e He Hne. destruct (Nat.eqb_spec e k); [contradiction|ring].
Qed.
Local Lemma sumn_add a b h : sumn (a + b) h = sumn a h + sumn b (fun i => h (a + i)%nat).
Proof. induction b as [|b IH]; [rewrite Nat.add_0_r, sumn_0; ring|]. rewrite Nat.add_succ_r, !sumn_S, IH. ring. Qed.
Local Lemma count_nodes k : (k < K)%nat -> sumn dof (fun g => if (g / Np =? k)%nat then 1 else 0) = INR Np.
Proof.
  unfold nodes. assert (H0 : Np <> 0%nat) by (pose proof dof_pos as H; unfold nodes in H; nia).
  assert (B : forall n, sumn (Np * n) (fun g => if (g / Np =? k)%nat then 1 else 0) = sumn n (fun e => if (e =? k)%nat then INR Np else 0)).
  { induction n as [|n IH]; [rewrite Nat.mul_0_r; reflexivity|]. rewrite Nat.mul_succ_r, sumn_add, sumn_S, IH. f_equal.
    rewrite (sumn_ext Np _ (fun _ => if (n =? k)%nat then 1 else 0)) by (intros i Hi; rewrite (Nat.mul_comm Np n), Nat.div_add_l, Nat.div_small, Nat.add_0_r by lia; reflexivity).
    rewrite sumn_const. destruct (n =? k)%nat; ring. }
  intro Hk. rewrite B. apply (sumn_if K k (fun _ => INR Np) Hk).
Qed.
(* When it does not, the problem solved is not the one with the mean of f subtracted, if two elements differ in area. *)
Theorem C97_unbalanced_refuted u : sumn dof load <> 0 -> poisson2d (exact G) splu Np K MT LT f = Ok u ->
  let mass := times dof M (fun _ => 1) in let mean := sumn dof load / sumn dof mass in
  let size k := area (TriGeoSpec.corner Vert EToV k 0) (TriGeoSpec.corner Vert EToV k 1) (TriGeoSpec.corner Vert EToV k 2) in
  (exists k k', (k < K)%nat /\ (k' < K)%nat /\ size k <> size k') ->
  exists i, (i < dof)%nat /\ times dof L (nv u) i <> - times dof M (fun j => nv f j - mean) i.
Proof.
  intros Hl Eu mass mean size (k & k' & Hk & Hk' & Hsz).
  assert (HX : exists i', (i' < dof)%nat /\ mass 0%nat <> mass i').
  { destruct (zero_dec dof (fun g => mass 0%nat - mass g)) as [Z|(g & Hg & Hx)]; [exfalso|exists g; split; [exact Hg|lra]]. apply Hsz. unfold size. rewrite <- (mass_of_element k Hk), <- (mass_of_element k' Hk').
    transitivity (mass 0%nat * INR Np); [rewrite <- (count_nodes k Hk)|rewrite <- (count_nodes k' Hk')]; rewrite <- sumn_scal; apply sumn_ext; intros g Hg; specialize (Z g Hg); cbn beta in Z; fold (mass g); replace (mass g) with (mass 0%nat) by lra; ring. }
  destruct HX as (i' & Hi' & Hne). set (i := 0%nat) in *. assert (Hi : (i < dof)%nat) by exact dof_pos. destruct C97_neumann as (u' & Eu' & _ & _ & H & _). rewrite Eu in Eu'. injection Eu' as <-.
  pose proof (lt_0_INR dof dof_pos) as HP.
  assert (Hm : 0 < sumn dof mass).
  { assert (P : 0 < form dof M (fun _ => 1) (fun _ => 1)) by (apply M_pos; exists 0%nat; split; [exact dof_pos|lra]). unfold form in P. rewrite (sumn_ext dof _ mass) in P by (intros; unfold mass; ring). exact P. }
  assert (HT : forall k, times dof M (fun j => nv f j - mean) k = load k - mean * mass k).
  { intro e. rewrite (times_minus dof M (nv f) (fun _ => mean) e). f_equal. unfold mass. rewrite <- (times_scal dof M mean (fun _ => 1) e). apply times_ext. intros; ring. }
  destruct (Req_dec (sumn dof load / INR dof) (mean * mass i)) as [E|E].
  - exists i'. split; [exact Hi'|]. rewrite HT, (H i' Hi'). intro Y. assert (Y' : mean * mass i = mean * mass i') by lra. apply Rmult_eq_reg_l in Y'; [contradiction|].
    unfold mean. intro Z. apply Hl. apply (f_equal (fun t => t * sumn dof mass)) in Z. unfold Rdiv in Z. rewrite Rmult_assoc, Rinv_l in Z by lra. lra.
  - exists i. split; [exact Hi|]. rewrite HT, (H i Hi). intro Y. apply E. lra.
Qed.
End Neumann.
End Bordered.
End Built.
End Facts.

(* The script's time step is positive and meets its own restriction at every face point. *)
Theorem C96_time_step G CFL kappa N Fscale : 0 < CFL -> 0 < kappa ->
  (exists i k, (i < mrows Fscale)%nat /\ (k < mcols Fscale)%nat /\ ment Fscale i k <> 0) ->
  exists dt, heat_dt (exact G) (1 / 2) CFL kappa N Fscale = Ok dt /\ 0 < dt /\
  forall i k, (i < mrows Fscale)%nat -> (k < mcols Fscale)%nat -> dt * (INR (S N) * INR (S N) * (1 / 2) * (ment Fscale i k * ment Fscale i k) * kappa) <= CFL.
Proof.
  intros HC Hk (a & c & Ha & Hc & Hne). unfold heat_dt.
  set (g := fun F => fmul (exact G) (fmul (exact G) (fmul (exact G) (fofn (exact G) (S N * S N)) (1 / 2)) (fmul (exact G) (fabs (exact G) F) (fabs (exact G) F))) kappa).
  assert (Eg : forall F, g F = INR (S N) * INR (S N) * (1 / 2) * (F * F) * kappa).
  { intro F. unfold g. cbn [exact fmul fabs]. unfold fofn. cbn [exact fofZ]. rewrite <- INR_IZR_INZ, mult_INR. rewrite <- Rabs_mult, (Rabs_pos_eq (F * F)) by nra. reflexivity. }
  assert (Hin : forall i k, (i < mrows Fscale)%nat -> (k < mcols Fscale)%nat -> In (g (ment Fscale i k)) (map g (flattenF Fscale))).
  { intros i k Hi Hk'. apply in_map. unfold flattenF. apply in_flat_map. exists k. split; [apply in_seq; lia|]. unfold mcol. apply in_map_iff. exists i. split; [reflexivity|apply in_seq; lia]. }
  destruct (np_max_ok G (map g (flattenF Fscale))) as (t & Et & It & Mt); [intro H; specialize (Hin a c Ha Hc); rewrite H in Hin; exact Hin|].
  rewrite Et. cbn [bind]. eexists. split; [reflexivity|]. cbn [exact fdiv].
  assert (HN : 0 < INR (S N)) by (apply lt_0_INR; lia).
  assert (Ht : 0 < t). { pose proof (Mt _ (Hin a c Ha Hc)) as H. rewrite Eg in H. assert (0 < ment Fscale a c * ment Fscale a c) by (apply (Rlt_0_sqr _ Hne)). assert (0 < INR (S N) * INR (S N) * (1 / 2) * (ment Fscale a c * ment Fscale a c) * kappa) by (apply Rmult_lt_0_compat; [apply Rmult_lt_0_compat; [apply Rmult_lt_0_compat; [apply Rmult_lt_0_compat; assumption|lra]|assumption]|assumption]). lra. }
  split; [apply Rdiv_lt_0_compat; assumption|]. intros i k Hi Hk'. pose proof (Mt _ (Hin i k Hi Hk')) as H. rewrite Eg in H.
  apply (Rmult_le_reg_r t); [exact Ht|]. replace (CFL / t * (INR (S N) * INR (S N) * (1 / 2) * (ment Fscale i k * ment Fscale i k) * kappa) * t) with (CFL * (INR (S N) * INR (S N) * (1 / 2) * (ment Fscale i k * ment Fscale i k) * kappa)) by (field; lra).
  apply Rmult_le_compat_l; lra.
Qed.

(* Concrete cases: the grids of C79_witness (two triangles, walls and one Neumann side, or one Dirichlet side) with Gaussian
   elimination as solver, and two triangles of different areas with walls all round. *)
Example C96_witness :
  direct gauss_splu /\
  let EToV := [0; 1; 2;  0; 2; 3]%nat in let bcType := [6; 3; 0; 0; 3; 7]%Z in
  exists el m, poisson_grid gwit cramer cramer_inv junk0 0 eig0 (1 / 10) isort (fun _ => 0) (fun _ => 0%nat) 1 2 [0; 0; 0;  1; 0; 0;  1; 1; 0;  0; 1; 0] EToV [0; 0; 1;  0; 1; 1]%nat [0; 1; 0;  2; 1; 2]%nat bcType el m /\
  consistent_tags 2 EToV bcType /\ connected 2 EToV bcType /\ dirichlet bcType 0 0 /\
  (exists s, poisson_of gwit cramer_inv junk0 (0%nat, 0) 1 2 [0; 0; 1;  0; 1; 1]%nat [0; 1; 0;  2; 1; 2]%nat bcType el m 0 0 = Ok s) /\
  exists B : mat R, shape B (length (e_r el)) 2 /\ exists g, (g < nodes el 2)%nat /\ nodal_values B g <> 0.
Proof.
  split; [exact gauss_direct|]. intros EToV bcType. destruct (C79_witness bcType (or_intror eq_refl)) as ((el & m & HG) & HC & HL). exists el, m. split; [exact HG|]. split; [exact HC|]. split; [exact HL|]. split; [reflexivity|]. split.
  - eapply C46_builds. exact HG.
  - exists (mkmat (length (e_r el)) 2 (fun _ _ => 1)). split; [split; reflexivity|]. exists 0%nat. split; [exact (dof_pos _ _ _ _ _ _ _ _ _ _ _ _ _ _ _ _ _ _ _ HG)|cbn; lra].
Qed.
Lemma kite_witness :
  let Vert := [0; 0; 0;  1; 0; 0;  1; 1; 0;  0; 2; 0] in let EToV := [0; 1; 2;  0; 2; 3]%nat in let bcType := [3; 3; 0; 0; 3; 7]%Z in
  let E2E := [0; 0; 1;  0; 1; 1]%nat in let E2F := [0; 1; 0;  2; 1; 2]%nat in
  exists el m, poisson_grid gwit cramer cramer_inv junk0 0 eig0 (1 / 10) isort (fun _ => 0) (fun _ => 0%nat) 1 2 Vert EToV E2E E2F bcType el m.
Proof.
  intros Vert EToV bcType E2E E2F. destruct (tri_grid_witness bcType ltac:(cbn; lia)) as ([LE LF HN HO _] & _). cbv zeta in LE, LF, HN, HO. fold EToV E2E E2F in LE, LF, HN, HO.
  assert (HA : forall k, (k < 2)%nat -> 0 < area (TriGeoSpec.corner Vert EToV k 0) (TriGeoSpec.corner Vert EToV k 1) (TriGeoSpec.corner Vert EToV k 2)).
  { intros k Hk. destruct k as [|[|]]; [| |lia]; unfold area, TriGeoSpec.corner, TriGeoSpec.cross, pminus; cbn; lra. }
  assert (HT : tri_mesh 2 Vert EToV E2E E2F) by (constructor; try assumption; intros k Hk; specialize (HA k Hk); lra).
  destruct (tri_witness_any 2 Vert EToV) as (el & HB). { split; [reflexivity|]. intros v Hv. cbn in Hv. repeat (destruct Hv as [<- |Hv]; [cbn; lia|]). destruct Hv. }
  pose proof (tri_tables _ _ _ _ _ _ _ _ _ _ _ _ HB _ _ LE LF HN) as HTb.
  destruct (C67_edge_nodes _ _ _ _ _ _ _ _ _ _ _ _ HB) as (Len & _ & g & _ & g0 & gN & _ & _ & _ & _ & Hm).
  edestruct (C38_defined (exact gwit) rhypot isort (fun _ => 0) (fun _ => 0%nat) (1 / 10) 3 2 (length (e_r el)) 2 (mask_table 1 (e_masks el)) (e_x el) (e_y el) E2E E2F EToV Vert bcType []) as (m & Em).
  - exact Rltb_strict_weak.
  - exact isort_is_sort.
  - cbn. unfold Rltb. destruct (Rlt_dec _ _) as [|Hx]; [reflexivity|]. exfalso. apply Hx. lra.
  - lia.
  - cbn. lia.
  - exact HTb.
  - exists el, m. assert (L : length (e_r el) = 3%nat) by (destruct (element_ok _ _ _ _ _ _ _ _ _ _ _ _ HB) as [lr]; rewrite lr; reflexivity).
    constructor; [|lia|vm_compute; discriminate|rewrite L; vm_compute; discriminate]. constructor; try assumption; try (cbn; lia).
    destruct (Hm 0%nat ltac:(lia)) as (mask & Ek & _ & _ & Hq). cbn [ment mask_table]. rewrite (nth_error_nth _ _ [] Ek).
    pose proof (Hq 0%nat ltac:(lia)) as Q0. pose proof (Hq 1%nat ltac:(lia)) as Q1. cbn zeta in Q0, Q1. injection Q0 as Q0 _. injection Q1 as Q1 _. rewrite g0 in Q0. rewrite gN in Q1.
    intros n n' Hn Hn' Hne. destruct n as [|[|]], n' as [|[|]]; try lia; rewrite Q0, Q1; unfold Rabs; destruct (Rcase_abs _); lra.
Qed.
Example C97_witness :
  direct gauss_splu /\
  let Vert := [0; 0; 0;  1; 0; 0;  1; 1; 0;  0; 2; 0] in let EToV := [0; 1; 2;  0; 2; 3]%nat in let bcType := [3; 3; 0; 0; 3; 7]%Z in
  let E2E := [0; 0; 1;  0; 1; 1]%nat in let E2F := [0; 1; 0;  2; 1; 2]%nat in
  exists el m, poisson_grid gwit cramer cramer_inv junk0 0 eig0 (1 / 10) isort (fun _ => 0) (fun _ => 0%nat) 1 2 Vert EToV E2E E2F bcType el m /\
  consistent_tags 2 EToV bcType /\ connected 2 EToV bcType /\ (forall k g, (k < 2)%nat -> (g < 3)%nat -> ~ dirichlet bcType k g) /\
  area (TriGeoSpec.corner Vert EToV 0 0) (TriGeoSpec.corner Vert EToV 0 1) (TriGeoSpec.corner Vert EToV 0 2) <> area (TriGeoSpec.corner Vert EToV 1 0) (TriGeoSpec.corner Vert EToV 1 1) (TriGeoSpec.corner Vert EToV 1 2) /\
  exists s, poisson_of gwit cramer_inv junk0 (0%nat, 0) 1 2 E2E E2F bcType el m 0 0 = Ok s /\
  let load f := sumn (nodes el 2) (times (nodes el 2) (entry_of (MM_ s)) (nodal_values f)) in
  (exists f, shape f (length (e_r el)) 2 /\ load f <> 0) /\ exists f, shape f (length (e_r el)) 2 /\ load f = 0 /\ exists g, (g < nodes el 2)%nat /\ nodal_values f g <> 0.
Proof.
  split; [exact gauss_direct|]. intros Vert EToV bcType E2E E2F. destruct kite_witness as (el & m & HG). exists el, m. split; [exact HG|].
  destruct (C79_witness bcType (or_introl eq_refl)) as (_ & HC & HL). split; [exact HC|]. split; [exact HL|]. split; [apply (proj2 C46_witness)|]. split.
  { unfold area, TriGeoSpec.corner, TriGeoSpec.cross, pminus. cbn. lra. }
  destruct (C46_builds _ _ _ _ _ _ _ _ _ _ _ _ _ _ _ _ _ _ _ HG (0%nat, 0) 0 0) as (s & Es). exists s. split; [exact Es|]. intro load. split.
  - exists (mkmat (length (e_r el)) 2 (fun _ _ => 1)). split; [split; reflexivity|].
    assert (P : 0 < quadratic (nodes el 2) (MM_ s) (fun _ => 1) (fun _ => 1)) by (eapply C46_mass_positive; [exact HG|exact Es|exists 0%nat; split; [exact (dof_pos _ _ _ _ _ _ _ _ _ _ _ _ _ _ _ _ _ _ _ HG)|lra]]).
    rewrite quadratic_form in P. unfold form in P. unfold load. rewrite (sumn_ext _ _ (times (nodes el 2) (entry_of (MM_ s)) (nodal_values (mkmat (length (e_r el)) 2 (fun _ _ => 1))))) in P by (intros; rewrite Rmult_1_l; apply times_ext; reflexivity). lra.
  - exists (mkmat (length (e_r el)) 2 (fun _ k => if (k =? 0)%nat then 2 else -1)). split; [split; reflexivity|].
    split; [|exists 0%nat; split; [exact (dof_pos _ _ _ _ _ _ _ _ _ _ _ _ _ _ _ _ _ _ _ HG)|unfold nodal_values; cbn [ment mrows]; destruct (length (e_r el)); cbn; lra]].
    set (f := mkmat _ _ _). unfold load. set (one := fun _ : nat => 1).
    assert (SY : forall i j, (i < nodes el 2)%nat -> (j < nodes el 2)%nat -> entry_of (MM_ s) i j = entry_of (MM_ s) j i) by (eapply C46_mass_symmetric; [exact HG|exact Es]).
    transitivity (form (nodes el 2) (entry_of (MM_ s)) one (nodal_values f)); [unfold form, one; apply sumn_ext; intros; ring|]. rewrite (form_sym _ _ _ _ SY).
    pose proof (mass_of_element _ _ _ _ _ _ _ _ _ _ _ _ _ _ _ _ _ _ _ HG _ s Es 0 ltac:(lia)) as M0. pose proof (mass_of_element _ _ _ _ _ _ _ _ _ _ _ _ _ _ _ _ _ _ _ HG _ s Es 1 ltac:(lia)) as M1.
    unfold form. rewrite (sumn_ext _ _ (fun g => 2 * ((if (g / length (e_r el) =? 0)%nat then 1 else 0) * times (nodes el 2) (entry_of (MM_ s)) one g) + -1 * ((if (g / length (e_r el) =? 1)%nat then 1 else 0) * times (nodes el 2) (entry_of (MM_ s)) one g))).
    + rewrite sumn_plus, !sumn_scal. unfold one. rewrite M0, M1. unfold area, TriGeoSpec.corner, TriGeoSpec.cross, pminus. cbn. lra.
    + intros g Hg. unfold f, nodal_values. cbn [ment mrows]. unfold nodes in Hg. assert (g / length (e_r el) < 2)%nat by (apply Nat.div_lt_upper_bound; [intro Z; rewrite Z in Hg; cbn in Hg; lia|lia]).
      destruct (g / length (e_r el))%nat as [|[|]]; [| |lia]; cbn [Nat.eqb]; ring.
Qed.
Print Assumptions C96_states_exist.
Print Assumptions C96_output.
Print Assumptions C96_boundary_load_unscaled_refuted.
Print Assumptions C96_stable.
Print Assumptions C96_converges.
Print Assumptions C96_time_step.
Print Assumptions C97_returns.
Print Assumptions C97_neumann.
Print Assumptions C97_balanced.
Print Assumptions C97_unbalanced_refuted.
