(* LUProps.v - C45: the life cycle of the sparse LU solver. Histories are lists of operations,
   oldest first; LUSpec.v reads the reversed list. *)
From Coq Require Import ZArith List Lia Bool Permutation.
From Verif Require Import Base LUModel LUSpec LUProofs.
Import ListNotations.
Local Open Scope Z_scope.

(* Every call of a legal history answers as the history prescribes; nothing undefined happens. *)
Theorem C45_history : forall M V rows cols usolve solves (ops : list (op M V)),
  library_ok rows cols usolve solves -> legal rows cols (rev ops) ->
  exists w rs, run rows cols usolve empty_world ops = Ok (w, rs) /\ answers rows cols usolve [] ops rs.
Proof.
  intros M V rows cols usolve solves ops Lib L.
  destruct (run_ok rows cols usolve solves ops Lib [] empty_world) as (w & rs & E & _ & A).
  - apply Inv_empty.
  - rewrite app_nil_r. exact L.
  - eauto.
Qed.
Print Assumptions C45_history.

(* solve returns normally only after a successful factorize of a square matrix that no later
   factorize of a square matrix superseded, and then with that matrix's solution. *)
Theorem C45_solve_needs_factorize : forall M V rows cols usolve solves (ops : list (op M V)) i rhs soln st w rs x,
  library_ok rows cols usolve solves -> legal rows cols (rev (ops ++ [Solve i rhs soln st])) ->
  run rows cols usolve empty_world (ops ++ [Solve i rhs soln st]) = Ok (w, rs ++ [Solved x]) ->
  exists before m a after y, ops = before ++ Factorize i m UOK UOK :: after /\
    matrix_now (rev before) m = Some a /\ rows a = cols a /\
    (forall b1 m' st1 st2 b2 a', after = b1 ++ Factorize i m' st1 st2 :: b2 ->
       matrix_now (rev (before ++ Factorize i m UOK UOK :: b1)) m' = Some a' -> rows a' <> cols a') /\
    ~ In (New i) after /\ ~ In (Destroy i) after /\
    matrix_now (rev ops) m = Some a /\
    solves a rhs y /\ Z.of_nat (List.length y) = rows a /\ x = y ++ skipn (List.length y) soln.
Proof.
  intros M V rows cols usolve solves ops i rhs soln st w rs x Lib L E.
  rewrite rev_app_distr in L. cbn [rev app legal] in L. destruct L as [[_ Lm] L].
  destruct (run_ok rows cols usolve solves ops Lib [] empty_world) as (w1 & rs1 & E1 & I1 & _).
  { apply Inv_empty. } { rewrite app_nil_r. exact L. }
  rewrite app_nil_r in I1. rewrite run_app, E1 in E. cbn [bind run] in E.
  destruct (step_ok rows cols usolve solves (rev ops) w1 (Solve i rhs soln st) Lib I1) as (w2 & r & E2 & _ & A).
  { cbn [legal_op]. split; [|exact Lm].
    destruct (alive (rev ops) i) eqn:Al; [reflexivity|]. exfalso.
    cbn [step] in E. unfold solve, the_solver in E.
    destruct (solvers w1 i) eqn:Es; [|discriminate E]. assert (alive (rev ops) i = true); [apply (inv_alive _ _ _ _ I1); congruence|congruence]. }
  rewrite E2 in E. cbn [bind] in E. injection E as _ Er. apply app_inj_tail in Er. destruct Er as [_ Er]. subst r.
  cbn [answer] in A. destruct A as [(m & a & y & R & L1 & L2 & _ & Ey & Ex)|[A _]]; [|discriminate]. injection Ex as ->.
  pose proof (Lm m a true R) as Now.
  destruct (registered_trace rows cols usolve solves (rev ops) i m a R) as (later & earlier & Ep & Em & Q & C & Nn & Nd).
  apply (f_equal (@rev _)) in Ep. rewrite rev_involutive, rev_app_distr in Ep. cbn [rev] in Ep. rewrite <- app_assoc in Ep. cbn [app] in Ep.
  unfold square in Q. apply Z.eqb_eq in Q. destruct (Lib a rhs Q L1) as (y' & Ey' & Ly & Sy).
  rewrite Ey in Ey'. injection Ey' as <-.
  exists (rev earlier), m, a, (rev later), y. split; [exact Ep|]. rewrite rev_involutive. split; [exact Em|]. split; [exact Q|]. split.
  { intros b1 m' st1 st2 b2 a' X Y. apply (f_equal (@rev _)) in X. rewrite rev_involutive, rev_app_distr in X. cbn [rev] in X.
    rewrite <- app_assoc in X. cbn [app] in X. pose proof (C _ _ _ _ _ _ a' X eq_refl) as Z0.
    rewrite rev_app_distr in Y. cbn [rev] in Y. rewrite rev_involutive, <- app_assoc in Y. cbn [app] in Y. specialize (Z0 Y).
    unfold square in Z0. apply Z.eqb_neq in Z0. exact Z0. }
  split; [rewrite <- in_rev; exact Nn|]. split; [rewrite <- in_rev; exact Nd|]. auto.
Qed.
Print Assumptions C45_solve_needs_factorize.

(* After a factorize of a square matrix that threw, solve throws whatever the library returns. *)
Theorem C45_failed_factorize : forall M V rows cols usolve solves (ops : list (op M V)) i m st1 st2 rhs soln st a,
  library_ok rows cols usolve solves -> legal rows cols (rev (ops ++ [Factorize i m st1 st2; Solve i rhs soln st])) ->
  matrix_now (rev ops) m = Some a -> rows a = cols a -> ~ (st1 = UOK /\ st2 = UOK) ->
  exists w rs, run rows cols usolve empty_world (ops ++ [Factorize i m st1 st2; Solve i rhs soln st]) = Ok (w, rs ++ [Threw; Threw]).
Proof.
  intros M V rows cols usolve solves ops i m st1 st2 rhs soln st a Lib L Em Q N.
  rewrite rev_app_distr in L. cbn [rev app legal] in L. destruct L as [Ls [Lf L]].
  destruct (run_ok rows cols usolve solves ops Lib [] empty_world) as (w1 & rs1 & E1 & I1 & _).
  { apply Inv_empty. } { rewrite app_nil_r. exact L. }
  rewrite app_nil_r in I1. rewrite run_app, E1. cbn [bind run].
  destruct (step_ok rows cols usolve solves (rev ops) w1 _ Lib I1 Lf) as (w2 & r & E2 & I2 & A). rewrite E2. cbn [bind].
  destruct (step_ok rows cols usolve solves _ w2 _ Lib I2 Ls) as (w3 & r' & E3 & I3 & A'). rewrite E3. cbn [bind].
  assert (Qb : square rows cols a = true) by (apply Z.eqb_eq; exact Q).
  cbn [answer] in A. destruct A as (a' & Ea & Ad & Ar). rewrite Em in Ea. injection Ea as <-.
  assert (r = Threw) as ->. { destruct Ar as [-> | ->]; [|reflexivity]. exfalso. apply N. apply Ad. reflexivity. }
  cbn [answer registered] in A'. rewrite Nat.eqb_refl, Em, Qb in A'.
  destruct A' as [(m' & a' & x & R & _)|(-> & _)]; [|eauto]. exfalso. apply N. injection R as _ _ R. destruct st1, st2; try discriminate. auto.
Qed.
Print Assumptions C45_failed_factorize.

(* Each handle is released at most once, is alive exactly as long as one solver holds it, and once
   every solver is destroyed all handles have been released exactly once. *)
Theorem C45_release_once : forall M V rows cols usolve solves (ops : list (op M V)),
  library_ok rows cols usolve solves -> legal rows cols (rev ops) ->
  exists w rs, run rows cols usolve empty_world ops = Ok (w, rs) /\ NoDup (freed w) /\
    (forall h, (h < next w)%nat -> (objs w h <> None /\ ~ In h (freed w)) \/ (objs w h = None /\ In h (freed w))) /\
    (forall h, objs w h <> None -> exists i s, solvers w i = Some s /\ (symbolic_ s = Some h \/ numeric_ s = Some h)) /\
    ((forall i, alive (rev ops) i = false) -> Permutation (freed w) (seq 0 (next w))).
Proof.
  intros M V rows cols usolve solves ops Lib L.
  destruct (run_ok rows cols usolve solves ops Lib [] empty_world) as (w & rs & E & I & _).
  { apply Inv_empty. } { rewrite app_nil_r. exact L. }
  rewrite app_nil_r in I. exists w, rs. split; [exact E|]. destruct I as [_ Ia _ O]. split; [apply O|].
  assert (P : forall h, (h < next w)%nat -> (objs w h <> None /\ ~ In h (freed w)) \/ (objs w h = None /\ In h (freed w))).
  { intros h H. apply (ow_bound _ _ _ _ O) in H. destruct H as [H|H].
    - left. split; [exact H|]. intros X. apply H, (ow_dead _ _ _ _ O), X.
    - right. split; [apply (ow_dead _ _ _ _ O), H|exact H]. }
  assert (Q : forall h, objs w h <> None -> exists i s, solvers w i = Some s /\ (symbolic_ s = Some h \/ numeric_ s = Some h)).
  { intros h H. destruct (ow_live _ _ _ _ O h H) as (i & b & X). unfold slots, slot_of in X.
    destruct (solvers w i) as [s|] eqn:Es; [|discriminate]. exists i, s. split; [exact Es|]. destruct b; auto. }
  split; [exact P|]. split; [exact Q|]. intros D. apply NoDup_Permutation; [apply O|apply seq_NoDup|].
  intros h. rewrite in_seq. split.
  - intros H. split; [lia|]. cbn. apply (ow_bound _ _ _ _ O). auto.
  - intros H. destruct (P h ltac:(lia)) as [[H1 _]|[_ H1]]; [|exact H1]. exfalso. destruct (Q h H1) as (i & s & Es & _).
    assert (alive (rev ops) i = true); [apply Ia; congruence|]. rewrite D in H0. discriminate.
Qed.
Print Assumptions C45_release_once.

(* Copying a factorised solver makes the second destructor, and any use of the copy after the
   first one, undefined. *)
Theorem C45_copy_double_release_refuted : forall M V rows cols usolve solves (ops : list (op M V)) i j m a rhs soln st,
  library_ok rows cols usolve solves -> legal rows cols (rev ops) ->
  registered rows cols (rev ops) i = Some (m, a, true) -> alive (rev ops) j = false ->
  run rows cols usolve empty_world (ops ++ [Copy i j; Destroy i; Destroy j]) = UB /\
  (matrix_now (rev ops) m = Some a -> rows a <= Z.of_nat (List.length rhs) -> rows a <= Z.of_nat (List.length soln) ->
   run rows cols usolve empty_world (ops ++ [Copy i j; Destroy i; Solve j rhs soln st]) = UB).
Proof.
  intros M V rows cols usolve solves ops i j m a rhs soln st Lib L R Aj.
  destruct (run_ok rows cols usolve solves ops Lib [] empty_world) as (w & rs & E & I & _).
  { apply Inv_empty. } { rewrite app_nil_r. exact L. }
  rewrite app_nil_r in I. rewrite !run_app, E. cbn [bind].
  destruct (copy_state rows cols usolve (rev ops) w i j m a I R Aj L) as (s & h & w1 & r1 & Es & En & Em & Eo & C1 & S1 & S1j & w2 & r2 & C2 & S2 & D2 & D2s & M2).
  cbn [run]. rewrite C1. cbn [bind]. rewrite C2. cbn [bind]. split.
  - cbn [step]. unfold destroy, the_solver. rewrite S2. cbn [bind]. unfold freeMem. destruct (symbolic_ s) as [h'|] eqn:Ey; cbn [release_opt].
    + unfold release. rewrite (D2s _ eq_refl). reflexivity.
    + cbn [bind]. rewrite En. cbn [release_opt]. unfold release. rewrite D2. reflexivity.
  - intros Now L1 L2. cbn [step]. unfold solve, the_solver. rewrite S2. cbn [bind]. rewrite En, Em, Eo.
    destruct (Z.ltb_spec (Z.of_nat (List.length rhs)) (rows a)); [lia|]. destruct (Z.ltb_spec (Z.of_nat (List.length soln)) (rows a)); [lia|].
    unfold the_mat. rewrite M2, (inv_mats _ _ _ _ I), Now. cbn [bind]. rewrite D2. reflexivity.
Qed.
Print Assumptions C45_copy_double_release_refuted.

(* The solver keeps a pointer to the matrix: once the matrix object is gone (a temporary, for
   instance), solving is undefined although the factorisation is still there. *)
Theorem C45_matrix_lifetime_refuted : forall M V rows cols usolve solves (ops : list (op M V)) i m a rhs soln st,
  library_ok rows cols usolve solves -> legal rows cols (rev ops) ->
  registered rows cols (rev ops) i = Some (m, a, true) ->
  rows a <= Z.of_nat (List.length rhs) -> rows a <= Z.of_nat (List.length soln) ->
  run rows cols usolve empty_world (ops ++ [DropMat m; Solve i rhs soln st]) = UB.
Proof.
  intros M V rows cols usolve solves ops i m a rhs soln st Lib L R L1 L2.
  destruct (run_ok rows cols usolve solves ops Lib [] empty_world) as (w & rs & E & I & _).
  { apply Inv_empty. } { rewrite app_nil_r. exact L. }
  rewrite app_nil_r in I. rewrite !run_app, E. cbn [bind run step].
  pose proof (registered_alive rows cols _ _ _ L R) as Al. destruct I as [_ Ia Ir _].
  destruct (solvers w i) as [s|] eqn:Es; [|exfalso; apply (proj1 (Ia i) Al); exact Es].
  pose proof (Ir i s Es) as A. rewrite R in A. destruct A as (A1 & A2 & A3 & h & A4 & A5).
  unfold solve, the_solver. cbn [with_mat solvers]. rewrite Es. cbn [bind]. rewrite A4, A1, A2.
  destruct (Z.ltb_spec (Z.of_nat (List.length rhs)) (rows a)); [lia|]. destruct (Z.ltb_spec (Z.of_nat (List.length soln)) (rows a)); [lia|].
  unfold the_mat. cbn [with_mat mats]. rewrite upd1_same. reflexivity.
Qed.
Print Assumptions C45_matrix_lifetime_refuted.

(* A concrete library: n-by-k matrices that are plus or minus the identity. *)
Definition toy := (Z * Z * bool)%type.
Definition toy_rows (a : toy) := Z.max 0 (fst (fst a)).
Definition toy_cols (a : toy) := snd (fst a).
Definition toy_mul (a : toy) (x : list Z) : list Z := map (fun v => if snd a then - v else v) x.
Definition toy_solve (a b : toy) (rhs : list Z) : outcome (list Z) := Ok (toy_mul a (firstn (Z.to_nat (toy_rows a)) rhs)).
Definition toy_solves (a : toy) (rhs x : list Z) : Prop := toy_mul a x = firstn (Z.to_nat (toy_rows a)) rhs.

Definition toy_ops : list (op toy Z) :=
  [SetMat 0 (2, 2, true); SetMat 1 (2, 3, false); SetMat 2 (1, 1, false); New 0; Factorize 0 0 UOK UOK; Solve 0 [3; 4; 5] [0; 0; 9] UOK;
   Factorize 0 1 UOK UOK; Solve 0 [1; 1] [0; 0] UOK; Factorize 0 2 UOK USingular; Solve 0 [1] [0] UOK].

Example C45_witness :
  run toy_rows toy_cols toy_solve empty_world toy_ops =
    (let w := match run toy_rows toy_cols toy_solve empty_world toy_ops with Ok (w, _) => w | _ => empty_world end in
     Ok (w, [Done; Done; Done; Done; Done; Solved [-3; -4; 9]; Threw; Solved [-1; -1]; Threw; Threw])) /\
  legal toy_rows toy_cols (rev toy_ops).
Proof.
  split; [reflexivity|]. cbn.
  repeat match goal with
  | |- _ /\ _ => split
  | |- True => exact I
  | |- _ = _ => reflexivity
  | |- Some _ <> None => discriminate
  | |- forall m a ok, _ -> _ => intros m a ok [= <- <- <-]; reflexivity
  end.
Qed.

Example C45_library_witness : library_ok toy_rows toy_cols toy_solve toy_solves.
Proof.
  intros a rhs Q L. unfold toy_solve, toy_solves. eexists. split; [reflexivity|]. unfold toy_mul. split.
  - rewrite map_length, firstn_length. assert (0 <= toy_rows a) by (unfold toy_rows; lia). lia.
  - rewrite map_map. destruct (snd a).
    + rewrite (map_ext _ (fun v => v)); [apply map_id|]. intros; lia.
    + apply map_id.
Qed.

Example C45_copy_witness : legal toy_rows toy_cols (rev (firstn 5 toy_ops)) /\
  registered toy_rows toy_cols (rev (firstn 5 toy_ops)) 0 = Some (0%nat, (2, 2, true), true) /\ alive (rev (firstn 5 toy_ops)) 1 = false.
Proof.
  split; [|split; reflexivity]. cbn.
  repeat match goal with |- _ /\ _ => split | |- True => exact I | |- _ = _ => reflexivity | |- Some _ <> None => discriminate end.
Qed.
