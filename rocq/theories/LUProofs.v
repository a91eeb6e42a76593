(* LUProofs.v - handle ownership in LUModel.v. *)
From Coq Require Import ZArith List Lia Bool.
From Verif Require Import Base LUModel LUSpec.
Import ListNotations.
Local Open Scope Z_scope.

Lemma upd1_same {A} (f : nat -> option A) i v : upd1 f i v i = v.
Proof. unfold upd1. rewrite Nat.eqb_refl. reflexivity. Qed.
Lemma upd1_other {A} (f : nat -> option A) i j v : j <> i -> upd1 f i v j = f j.
Proof. unfold upd1. intros H. destruct (Nat.eqb_spec j i); congruence. Qed.

(* Every live object is held by exactly one slot (solver, symbolic or numeric field); every handle
   ever given out is live or released, and no handle was released twice. *)
Record owned {M} (o : nat -> option (obj M)) (n : nat) (f : list nat) (sl : nat -> bool -> option nat) : Prop := mkowned {
  ow_held : forall i b h, sl i b = Some h -> o h <> None;
  ow_live : forall h, o h <> None -> exists i b, sl i b = Some h;
  ow_uniq : forall i b j c h, sl i b = Some h -> sl j c = Some h -> i = j /\ b = c;
  ow_bound : forall h, (h < n)%nat <-> (o h <> None \/ In h f);
  ow_once : NoDup f;
  ow_dead : forall h, In h f -> o h = None }.

Definition slot_set (sl : nat -> bool -> option nat) i b v : nat -> bool -> option nat :=
  fun j c => if Nat.eqb j i && Bool.eqb c b then v else sl j c.
Lemma slot_set_same sl i b v : slot_set sl i b v i b = v.
Proof. unfold slot_set. rewrite Nat.eqb_refl, Bool.eqb_reflx. reflexivity. Qed.
Lemma slot_set_cases sl i b v j c : (j = i /\ c = b /\ slot_set sl i b v j c = v) \/ ((j <> i \/ c <> b) /\ slot_set sl i b v j c = sl j c).
Proof.
  unfold slot_set. destruct (Nat.eqb_spec j i); cbn [andb]; [|auto].
  destruct (Bool.eqb c b) eqn:E; [left|right].
  - apply Bool.eqb_prop in E. auto.
  - apply Bool.eqb_false_iff in E. auto.
Qed.

Section Proofs.
Context {M V : Type}.
Implicit Type o : nat -> option (obj M).
Implicit Types w : world M.

Lemma owned_ext o n f sl sl' : (forall i b, sl i b = sl' i b) -> owned o n f sl -> owned o n f sl'.
Proof.
  intros E [A B C D F G]. constructor; auto.
  - intros i b h. rewrite <- E. apply A.
  - intros h H. destruct (B h H) as (i & b & X). exists i, b. rewrite <- E. exact X.
  - intros i b j c h. rewrite <- !E. apply C.
Qed.

Lemma owned_release o n f sl i b h : owned o n f sl -> sl i b = Some h ->
  owned (upd1 o h None) n (h :: f) (slot_set sl i b None).
Proof.
  intros [A B C D F G] Hs. pose proof (A _ _ _ Hs) as Hl. constructor.
  - intros j c k Hk. destruct (slot_set_cases sl i b None j c) as [(-> & -> & E)|(N & E)]; rewrite E in Hk; [discriminate|].
    rewrite upd1_other; [eapply A; eauto|]. intros ->. destruct (C _ _ _ _ _ Hk Hs). destruct N; congruence.
  - intros k Hk. destruct (Nat.eq_dec k h) as [->|Hne]; [rewrite upd1_same in Hk; congruence|].
    rewrite upd1_other in Hk by auto. destruct (B k Hk) as (j & c & E). exists j, c.
    destruct (slot_set_cases sl i b None j c) as [(-> & -> & _)|(N & E')]; [congruence|]. rewrite E'. exact E.
  - intros j c j' c' k H1 H2.
    destruct (slot_set_cases sl i b None j c) as [(-> & -> & E)|(N & E)]; rewrite E in H1; [discriminate|].
    destruct (slot_set_cases sl i b None j' c') as [(-> & -> & E')|(N' & E')]; rewrite E' in H2; [discriminate|].
    eapply C; eauto.
  - intros k. rewrite D. cbn [In]. destruct (Nat.eq_dec k h) as [->|Hne].
    + rewrite upd1_same. split; auto.
    + rewrite upd1_other by auto. split; [intuition|]. intros [H|[H|H]]; auto; congruence.
  - constructor; [|exact F]. intros H. apply Hl, G, H.
  - intros k Hk. destruct (Nat.eq_dec k h) as [->|Hne]; [apply upd1_same|]. rewrite upd1_other by auto.
    destruct Hk as [->|Hk]; [congruence|]. apply G, Hk.
Qed.

Lemma owned_alloc o n f sl i b x : owned o n f sl -> sl i b = None ->
  owned (upd1 o n (Some x)) (S n) f (slot_set sl i b (Some n)).
Proof.
  intros [A B C D F G] Hs.
  assert (Hn : o n = None). { destruct (o n) eqn:E; [|reflexivity]. exfalso. assert (n < n)%nat; [apply D; left; congruence|lia]. }
  assert (Hsl : forall j c, sl j c <> Some n). { intros j c E. apply A in E. congruence. }
  constructor.
  - intros j c k Hk. destruct (slot_set_cases sl i b (Some n) j c) as [(-> & -> & E)|(N & E)]; rewrite E in Hk.
    + injection Hk as <-. rewrite upd1_same. discriminate.
    + destruct (Nat.eq_dec k n) as [->|]; [rewrite upd1_same; discriminate|]. rewrite upd1_other by auto. eapply A; eauto.
  - intros k Hk. destruct (Nat.eq_dec k n) as [->|Hne].
    + exists i, b. apply slot_set_same.
    + rewrite upd1_other in Hk by auto. destruct (B k Hk) as (j & c & E). exists j, c.
      destruct (slot_set_cases sl i b (Some n) j c) as [(-> & -> & _)|(N & E')]; [congruence|]. rewrite E'. exact E.
  - intros j c j' c' k H1 H2.
    destruct (slot_set_cases sl i b (Some n) j c) as [(-> & -> & E)|(N & E)]; rewrite E in H1;
    destruct (slot_set_cases sl i b (Some n) j' c') as [(-> & -> & E')|(N' & E')]; rewrite E' in H2; auto.
    + injection H1 as <-. exfalso. eapply Hsl; eauto.
    + injection H2 as <-. exfalso. eapply Hsl; eauto.
    + eapply C; eauto.
  - intros k. destruct (Nat.eq_dec k n) as [->|Hne].
    + rewrite upd1_same. split; [left; discriminate|lia].
    + rewrite upd1_other by auto. rewrite <- D. lia.
  - exact F.
  - intros k Hk. destruct (Nat.eq_dec k n) as [->|Hne].
    + exfalso. assert (n < n)%nat; [apply D; auto|lia].
    + rewrite upd1_other by auto. apply G, Hk.
Qed.

(* The slots of the solver objects. *)
Definition slot_of (s : option solver) (b : bool) : option nat :=
  match s with Some s => if b then numeric_ s else symbolic_ s | None => None end.
Definition slots (w : world M) : nat -> bool -> option nat := fun i b => slot_of (solvers w i) b.

Lemma release_opt_owned w sl i b v : owned (objs w) (next w) (freed w) sl -> sl i b = v ->
  exists w', release_opt w v = Ok w' /\ next w' = next w /\ solvers w' = solvers w /\ mats w' = mats w /\
    owned (objs w') (next w') (freed w') (slot_set sl i b None) /\
    (forall j c h, (j <> i \/ c <> b) -> sl j c = Some h -> objs w' h = objs w h) /\
    (forall h, objs w h = None -> objs w' h = None).
Proof.
  intros Ho Hs. destruct v as [h|]; cbn [release_opt].
  - unfold release. pose proof (ow_held _ _ _ _ Ho _ _ _ Hs) as Hl. destruct (objs w h) eqn:E; [|congruence].
    eexists. split; [reflexivity|]. cbn [next solvers mats objs freed]. split; [reflexivity|]. split; [reflexivity|].
    split; [reflexivity|]. split; [apply owned_release; assumption|]. split.
    + intros j c h' N Hh. apply upd1_other. intros ->. destruct (ow_uniq _ _ _ _ Ho _ _ _ _ _ Hs Hh). destruct N; congruence.
    + intros h' Hh. destruct (Nat.eq_dec h' h) as [->|]; [apply upd1_same|]. rewrite upd1_other; auto.
  - exists w. repeat (split; [reflexivity|]). split; [|auto]. eapply owned_ext; [|exact Ho]. intros j c.
    destruct (slot_set_cases sl i b None j c) as [(-> & -> & ->)|(_ & ->)]; auto.
Qed.

Lemma freeMem_ok w i s sl : owned (objs w) (next w) (freed w) sl -> sl i false = symbolic_ s -> sl i true = numeric_ s ->
  exists w', freeMem w s = Ok (w', mksolver (order_ s) (mat_ s) None None) /\
    solvers w' = solvers w /\ mats w' = mats w /\
    owned (objs w') (next w') (freed w') (slot_set (slot_set sl i false None) i true None) /\
    (forall j c h, j <> i -> sl j c = Some h -> objs w' h = objs w h).
Proof.
  intros Ho H1 H2. destruct (release_opt_owned w sl i false (symbolic_ s) Ho H1) as (w1 & E1 & N1 & S1 & M1 & O1 & K1 & _).
  destruct (release_opt_owned w1 (slot_set sl i false None) i true (numeric_ s)) as (w2 & E2 & N2 & S2 & M2 & O2 & K2 & _).
  - exact O1.
  - destruct (slot_set_cases sl i false None i true) as [(_ & ? & _)|(_ & ->)]; [discriminate|exact H2].
  - exists w2. unfold freeMem. rewrite E1. cbn [bind]. rewrite E2. cbn [bind]. split; [reflexivity|].
    split; [congruence|]. split; [congruence|]. split; [exact O2|]. intros j c h Hj Hh.
    rewrite (K2 j c); [apply (K1 j c); auto|auto|].
    destruct (slot_set_cases sl i false None j c) as [(? & _ & _)|(_ & ->)]; [congruence|exact Hh].
Qed.

Variables rows cols : M -> Z.

Definition num_state (w : world M) (s : solver) (a : M) (st1 st2 : status) : Prop :=
  match st1, st2 with
  | UOK, UOK => exists h, numeric_ s = Some h /\ objs w h = Some (Num a false)
  | UOK, USingular => exists h, numeric_ s = Some h /\ objs w h = Some (Num a true)
  | _, _ => numeric_ s = None
  end.

Lemma factorize_ok w i m s a st1 st2 :
  owned (objs w) (next w) (freed w) (slots w) -> solvers w i = Some s -> mats w m = Some a -> square rows cols a = true ->
  exists w' s', factorize rows cols w i m st1 st2 = Ok (w', if is_ok st1 && is_ok st2 then (Done : result V) else Threw) /\
    mats w' = mats w /\ owned (objs w') (next w') (freed w') (slots w') /\
    (forall j, j <> i -> solvers w' j = solvers w j) /\
    (forall j b h, j <> i -> slots w j b = Some h -> objs w' h = objs w h) /\
    solvers w' i = Some s' /\ order_ s' = rows a /\ mat_ s' = Some m /\ num_state w' s' a st1 st2.
Proof.
  intros Ho Hs Hm Hq. unfold factorize, the_solver, the_mat. rewrite Hs, Hm. cbn [bind].
  unfold square in Hq. rewrite Hq. cbn [negb].
  destruct (freeMem_ok w i (mksolver (rows a) (Some m) (symbolic_ s) (numeric_ s)) (slots w)) as (w1 & E1 & S1 & M1 & O1 & K1).
  { exact Ho. } { unfold slots. rewrite Hs. reflexivity. } { unfold slots. rewrite Hs. reflexivity. }
  rewrite E1. cbn [bind]. clear E1. cbn [order_ mat_].
  assert (Kn1 : forall j b h, j <> i -> slots w j b = Some h -> h <> next w1 /\ objs w1 h <> None).
  { intros j b h Hj Hh. assert (L : objs w1 h <> None).
    { apply (ow_held _ _ _ _ O1 j b). unfold slot_set. destruct (Nat.eqb_spec j i); [congruence|]. exact Hh. }
    split; [|exact L]. assert (h < next w1)%nat; [apply (ow_bound _ _ _ _ O1); auto|lia]. }
  unfold symbolicFactorize. destruct (is_ok st1) eqn:I1.
  2: { (* symbolic factorisation failed *)
    cbn [negb andb]. eexists _, _. split; [reflexivity|]. cbn [with_solver mats objs next freed solvers numeric_].
    split; [exact M1|]. split.
    { eapply owned_ext; [|exact O1]. intros j b. unfold slot_set, slots, with_solver, upd1. cbn [solvers].
      destruct (Nat.eqb_spec j i); cbn [andb]; [destruct b; reflexivity|]. rewrite S1. reflexivity. }
    split; [intros j Hj; rewrite upd1_other by auto; congruence|]. split; [exact K1|].
    split; [apply upd1_same|]. split; [reflexivity|]. split; [reflexivity|]. destruct st1; [discriminate|reflexivity|reflexivity]. }
  destruct st1; try discriminate I1. cbn [alloc negb andb].
  pose proof (owned_alloc _ _ _ _ i false (Sym a) O1) as O2.
  assert (X : slot_set (slot_set (slots w) i false None) i true None i false = None).
  { unfold slot_set. rewrite Nat.eqb_refl. reflexivity. }
  specialize (O2 X). clear X. set (w2 := mkworld (upd1 (objs w1) (next w1) (Some (Sym a))) (S (next w1)) (freed w1) (solvers w1) (mats w1)).
  change (mkworld _ _ _ _ _) with w2.
  change (owned (objs w2) (next w2) (freed w2) (slot_set (slot_set (slot_set (slots w) i false None) i true None) i false (Some (next w1)))) in O2.
  assert (K2 : forall j b h, j <> i -> slots w j b = Some h -> objs w2 h = objs w h /\ h <> next w1 /\ h <> S (next w1)).
  { intros j b h Hj Hh. destruct (Kn1 j b h Hj Hh) as [Hn L]. cbn [w2 objs]. rewrite upd1_other by auto.
    split; [eapply K1; eauto|]. split; [exact Hn|]. assert (h < next w1)%nat; [apply (ow_bound _ _ _ _ O1); auto|lia]. }
  unfold numericFactorize. destruct st2; cbn [is_ok negb].
  - (* success *)
    cbn [alloc]. set (w3 := mkworld _ _ _ _ _). cbn [symbolic_ negb numeric_ order_ mat_].
    pose proof (owned_alloc _ _ _ _ i true (Num a false) O2) as O3.
    assert (X : slot_set (slot_set (slot_set (slots w) i false None) i true None) i false (Some (next w1)) i true = None).
    { unfold slot_set. rewrite Nat.eqb_refl. reflexivity. }
    specialize (O3 X). clear X.
    destruct (release_opt_owned w3 _ i false (Some (next w1)) O3) as (w4 & E4 & N4 & S4 & M4 & O4 & K4 & _).
    { unfold slot_set. rewrite Nat.eqb_refl. reflexivity. }
    rewrite E4. cbn [bind]. eexists _, _. split; [reflexivity|]. cbn [with_solver mats objs next freed solvers numeric_].
    split; [rewrite M4; exact M1|]. split.
    { eapply owned_ext; [|exact O4]. intros j b. unfold slot_set, slots, with_solver, upd1. cbn [solvers].
      destruct (Nat.eqb_spec j i); cbn [andb]; [destruct b; reflexivity|]. rewrite S4. cbn [w3 solvers w2]. rewrite S1. reflexivity. }
    split; [intros j Hj; rewrite upd1_other by auto; rewrite S4; cbn [w3 solvers w2]; congruence|]. split.
    { intros j b h Hj Hh. rewrite (K4 j b); [| auto |].
      - cbn [w3 objs]. destruct (K2 j b h Hj Hh) as (E & _ & N). rewrite upd1_other by exact N. exact E.
      - unfold slot_set. destruct (Nat.eqb_spec j i); [congruence|]. exact Hh. }
    split; [apply upd1_same|]. split; [reflexivity|]. split; [reflexivity|]. cbn [num_state]. exists (next w2). split; [reflexivity|].
    cbn [with_solver objs]. rewrite (K4 i true); [cbn [w3 objs]; apply upd1_same| right; discriminate |].
    unfold slot_set. rewrite Nat.eqb_refl. reflexivity.
  - (* singular: the object is kept *)
    cbn [alloc]. set (w3 := mkworld _ _ _ _ _). cbn [symbolic_ negb numeric_ order_ mat_].
    pose proof (owned_alloc _ _ _ _ i true (Num a true) O2) as O3.
    assert (X : slot_set (slot_set (slot_set (slots w) i false None) i true None) i false (Some (next w1)) i true = None).
    { unfold slot_set. rewrite Nat.eqb_refl. reflexivity. }
    specialize (O3 X). clear X. eexists _, _. split; [reflexivity|]. cbn [with_solver mats objs next freed solvers numeric_].
    split; [exact M1|]. split.
    { eapply owned_ext; [|exact O3]. intros j b. unfold slot_set, slots, with_solver, upd1. cbn [solvers].
      destruct (Nat.eqb_spec j i); cbn [andb]; [destruct b; reflexivity|]. cbn [w3 solvers w2]. rewrite S1. reflexivity. }
    split; [intros j Hj; rewrite upd1_other by auto; cbn [w3 solvers w2]; congruence|]. split.
    { intros j b h Hj Hh. cbn [w3 objs]. destruct (K2 j b h Hj Hh) as (E & _ & N). rewrite upd1_other by exact N. exact E. }
    split; [apply upd1_same|]. split; [reflexivity|]. split; [reflexivity|]. cbn [num_state]. exists (next w2). split; [reflexivity|].
    cbn [with_solver objs w3]. apply upd1_same.
  - (* numeric factorisation failed: the symbolic object is kept *)
    eexists _, _. split; [reflexivity|]. cbn [with_solver mats objs next freed solvers numeric_].
    split; [exact M1|]. split.
    { eapply owned_ext; [|exact O2]. intros j b. unfold slot_set, slots, with_solver, upd1. cbn [solvers].
      destruct (Nat.eqb_spec j i); cbn [andb]; [destruct b; reflexivity|]. cbn [solvers w2]. rewrite S1. reflexivity. }
    split; [intros j Hj; rewrite upd1_other by auto; cbn [solvers w2]; congruence|]. split.
    { intros j b h Hj Hh. destruct (K2 j b h Hj Hh) as (E & _). exact E. }
    split; [apply upd1_same|]. split; [reflexivity|]. split; reflexivity.
Qed.

(* What the library objects of a solver say, in terms of the history. *)
Definition agrees (w : world M) (s : solver) (r : option (nat * M * bool)) : Prop :=
  match r with
  | Some (m, a, ok) => mat_ s = Some m /\ order_ s = rows a /\ square rows cols a = true /\
      (if ok then exists h, numeric_ s = Some h /\ objs w h = Some (Num a false)
       else numeric_ s = None \/ exists h, numeric_ s = Some h /\ objs w h = Some (Num a true))
  | None => mat_ s = None /\ numeric_ s = None
  end.

Record Inv (past : list (op M V)) (w : world M) : Prop := mkInv {
  inv_mats : forall m, mats w m = matrix_now past m;
  inv_alive : forall i, alive past i = true <-> solvers w i <> None;
  inv_reg : forall i s, solvers w i = Some s -> agrees w s (registered rows cols past i);
  inv_own : owned (objs w) (next w) (freed w) (slots w) }.

Lemma agrees_keep w w' s r : (forall h, numeric_ s = Some h -> objs w' h = objs w h) -> agrees w s r -> agrees w' s r.
Proof.
  intros K. unfold agrees. destruct r as [[[m a] ok]|]; [|auto]. intros (A & B & C & D). split; [auto|]. split; [auto|]. split; [auto|].
  destruct ok.
  - destruct D as (h & E & F). exists h. rewrite K by exact E. auto.
  - destruct D as [D|(h & E & F)]; [auto|]. right. exists h. rewrite K by exact E. auto.
Qed.

Lemma agrees_num w s a m st1 st2 : order_ s = rows a -> mat_ s = Some m -> square rows cols a = true ->
  num_state w s a st1 st2 -> agrees w s (Some (m, a, is_ok st1 && is_ok st2)).
Proof. intros A B C D. cbn [agrees]. repeat (split; [assumption|]). destruct st1, st2; cbn in *; auto. Qed.

Variable usolve : M -> M -> list V -> outcome (list V).
Variable solves : M -> list V -> list V -> Prop.

Lemma step_ok past w (o : op M V) : library_ok rows cols usolve solves -> Inv past w -> legal_op rows cols past o ->
  exists w' r, step rows cols usolve w o = Ok (w', r) /\ Inv (o :: past) w' /\ answer rows cols usolve past o r.
Proof.
  intros Lib I L. destruct I as [Im Ia Ir Io]. destruct o as [i|i m st1 st2|i rhs soln st|i|i j|m a|m]; cbn [step legal_op] in *.
  - (* New *)
    unfold construct. destruct (solvers w i) eqn:E; [exfalso; assert (alive past i = true) by (apply Ia; congruence); congruence|].
    eexists _, _. split; [reflexivity|]. split; [|reflexivity]. constructor.
    + exact Im.
    + intros k. cbn [alive with_solver solvers]. destruct (Nat.eqb_spec k i) as [->|N]; cbn [orb].
      * rewrite upd1_same. split; [discriminate|reflexivity].
      * rewrite upd1_other by auto. apply Ia.
    + intros k s Hk. cbn [with_solver solvers] in Hk. cbn [registered]. destruct (Nat.eqb_spec k i) as [->|N].
      * rewrite upd1_same in Hk. injection Hk as <-. split; reflexivity.
      * rewrite upd1_other in Hk by auto. apply (agrees_keep w); [reflexivity|]. apply Ir, Hk.
    + cbn [with_solver objs next freed]. eapply owned_ext; [|exact Io]. intros k b. unfold slots, with_solver, upd1. cbn [solvers].
      destruct (Nat.eqb_spec k i) as [->|]; [|reflexivity]. rewrite E. destruct b; reflexivity.
  - (* Factorize *)
    destruct L as [La Lm]. destruct (solvers w i) as [s|] eqn:Es; [|exfalso; apply (proj1 (Ia i) La); exact Es].
    destruct (matrix_now past m) as [a|] eqn:Em; [|congruence]. assert (Hm : mats w m = Some a) by (rewrite Im; exact Em).
    destruct (square rows cols a) eqn:Q.
    + destruct (factorize_ok w i m s a st1 st2 Io Es Hm Q) as (w' & s' & E & M' & O' & S' & K' & Es' & Or & Ma & Nu).
      eexists w', _. split; [exact E|]. split.
      * constructor.
        -- intros k. rewrite M'. cbn [matrix_now]. apply Im.
        -- intros k. cbn [alive]. rewrite Ia. destruct (Nat.eq_dec k i) as [->|N]; [rewrite Es, Es'; split; discriminate|].
           rewrite S' by auto. reflexivity.
        -- intros k sk Hk. cbn [registered]. destruct (Nat.eqb_spec k i) as [->|N].
           ++ rewrite Em, Q. assert (sk = s') by congruence. subst sk. apply agrees_num; auto.
           ++ rewrite S' in Hk by auto. apply (agrees_keep w); [|apply Ir, Hk]. intros h Hh. apply (K' k true); auto.
              unfold slots. rewrite Hk. exact Hh.
        -- exact O'.
      * cbn [answer]. exists a. split; [exact Em|]. destruct st1, st2; cbn; (split; [|auto]); split; intuition congruence.
    + unfold factorize, the_solver, the_mat. rewrite Es, Hm. cbn [bind]. unfold square in Q. rewrite Q. cbn [negb].
      eexists _, _. split; [reflexivity|]. split.
      * constructor; auto. intros k sk Hk. cbn [registered]. rewrite Em. unfold square. rewrite Q.
        destruct (Nat.eqb k i); apply Ir, Hk.
      * cbn [answer]. exists a. split; [exact Em|]. split; [|auto]. unfold square. rewrite Q. intuition congruence.
  - (* Solve *)
    destruct L as [La Lm]. destruct (solvers w i) as [s|] eqn:Es; [|exfalso; apply (proj1 (Ia i) La); exact Es].
    pose proof (Ir i s Es) as A. unfold solve, the_solver. rewrite Es. cbn [bind].
    assert (Keep : Inv (Solve i rhs soln st :: past) w) by (constructor; auto).
    destruct (registered rows cols past i) as [[[m a] ok]|] eqn:R.
    2: { destruct A as [_ A]. rewrite A. exists w, Threw. split; [reflexivity|]. split; [exact Keep|]. right. split; [reflexivity|].
         intros; congruence. }
    destruct A as (A1 & A2 & A3 & A4). specialize (Lm m a ok eq_refl). rewrite A1, A2.
    assert (Hm : the_mat w m = Ok a). { unfold the_mat. rewrite Im, Lm. reflexivity. }
    destruct (numeric_ s) as [h|] eqn:En.
    2: { exists w, Threw. split; [reflexivity|]. split; [exact Keep|]. right. split; [reflexivity|]. intros m' a' X.
         rewrite R in X. injection X as _ _ ->. destruct A4 as (h & X & _). discriminate. }
    destruct (Z.ltb_spec (Z.of_nat (List.length rhs)) (rows a)) as [L1|L1].
    { exists w, Threw. split; [reflexivity|]. split; [exact Keep|]. right. split; [reflexivity|]. intros m' a' X. rewrite R in X.
      injection X as _ <- _. lia. }
    destruct (Z.ltb_spec (Z.of_nat (List.length soln)) (rows a)) as [L2|L2].
    { exists w, Threw. split; [reflexivity|]. split; [exact Keep|]. right. split; [reflexivity|]. intros m' a' X. rewrite R in X.
      injection X as _ <- _. lia. }
    rewrite Hm. cbn [bind]. destruct (Lib a rhs) as (x & Ex & _); [unfold square in A3; apply Z.eqb_eq; exact A3|exact L1|].
    destruct ok.
    + destruct A4 as (h' & E' & O'). injection E' as <-. rewrite O', Ex. cbn [bind negb]. rewrite andb_true_r. destruct (is_ok st) eqn:S0.
      * eexists _, _. split; [reflexivity|]. split; [exact Keep|]. left. exists m, a, x. destruct st; try discriminate.
        rewrite R. auto 10.
      * eexists _, _. split; [reflexivity|]. split; [exact Keep|]. right. split; [reflexivity|]. intros. intros ->. discriminate.
    + destruct A4 as [A4|(h' & E' & O')]; [discriminate|]. injection E' as <-. rewrite O', Ex. cbn [bind negb]. rewrite andb_false_r.
      eexists _, _. split; [reflexivity|]. split; [exact Keep|]. right. split; [reflexivity|]. intros. congruence.
  - (* Destroy *)
    destruct (solvers w i) as [s|] eqn:Es; [|exfalso; apply (proj1 (Ia i) L); exact Es].
    unfold destroy, the_solver. rewrite Es. cbn [bind].
    destruct (freeMem_ok w i s (slots w)) as (w1 & E1 & S1 & M1 & O1 & K1); [exact Io|unfold slots; rewrite Es; reflexivity|unfold slots; rewrite Es; reflexivity|].
    rewrite E1. cbn [bind]. eexists _, _. split; [reflexivity|]. split; [|reflexivity]. constructor.
    + intros k. cbn [with_solver mats matrix_now]. rewrite M1. apply Im.
    + intros k. cbn [alive with_solver solvers]. destruct (Nat.eqb_spec k i) as [->|N]; cbn [negb andb].
      * rewrite upd1_same. split; [discriminate|congruence].
      * rewrite upd1_other by auto. rewrite S1. apply Ia.
    + intros k sk Hk. cbn [with_solver solvers] in Hk. cbn [registered]. destruct (Nat.eqb_spec k i) as [->|N].
      * rewrite upd1_same in Hk. discriminate.
      * rewrite upd1_other in Hk by auto. rewrite S1 in Hk. apply (agrees_keep w); [|apply Ir, Hk]. intros h Hh.
        cbn [with_solver objs]. apply (K1 k true); auto. unfold slots. rewrite Hk. exact Hh.
    + cbn [with_solver objs next freed]. eapply owned_ext; [|exact O1]. intros k b. unfold slot_set, slots, with_solver, upd1. cbn [solvers].
      destruct (Nat.eqb_spec k i); cbn [andb]; [destruct b; reflexivity|]. rewrite S1. reflexivity.
  - destruct L.
  - (* SetMat *)
    eexists _, _. split; [reflexivity|]. split; [|reflexivity]. constructor; auto.
    intros k. cbn [with_mat mats matrix_now]. unfold upd1. destruct (Nat.eqb k m); auto.
  - (* DropMat *)
    eexists _, _. split; [reflexivity|]. split; [|reflexivity]. constructor; auto.
    intros k. cbn [with_mat mats matrix_now]. unfold upd1. destruct (Nat.eqb k m); auto.
Qed.

Lemma Inv_empty : Inv [] empty_world.
Proof.
  constructor; cbn; auto; try congruence.
  - intros. split; [discriminate|congruence].
  - constructor; cbn; try congruence; try tauto.
    + intros h. split; [lia|intros [H|[]]; congruence].
    + constructor.
Qed.

Lemma legal_app (ops past : list (op M V)) : legal rows cols (ops ++ past) -> legal rows cols past.
Proof. induction ops; cbn; [auto|]. intros [_ H]. auto. Qed.

Lemma run_ok (ops : list (op M V)) : library_ok rows cols usolve solves -> forall past w, Inv past w -> legal rows cols (rev ops ++ past) ->
  exists w' rs, run rows cols usolve w ops = Ok (w', rs) /\ Inv (rev ops ++ past) w' /\ answers rows cols usolve past ops rs.
Proof.
  intros Lib. induction ops as [|o ops IH]; intros past w I L; cbn [run].
  - exists w, []. split; [reflexivity|]. split; [exact I|exact Logic.I].
  - cbn [rev] in *. rewrite <- app_assoc in *. cbn [app] in *. pose proof (legal_app _ _ L) as [Lo Lp].
    destruct (step_ok past w o Lib I Lo) as (w1 & r & E & I1 & A). rewrite E. cbn [bind].
    destruct (IH (o :: past) w1 I1 L) as (w2 & rs & E2 & I2 & A2). rewrite E2. cbn [bind].
    exists w2, (r :: rs). split; [reflexivity|]. split; [exact I2|]. split; assumption.
Qed.

Lemma run_app (ops1 ops2 : list (op M V)) w : run rows cols usolve w (ops1 ++ ops2) =
  bind (run rows cols usolve w ops1) (fun '(w, rs) => bind (run rows cols usolve w ops2) (fun '(w, rs') => Ok (w, rs ++ rs'))).
Proof.
  revert w. induction ops1 as [|o ops1 IH]; intros w; cbn [run app bind].
  - destruct (run rows cols usolve w ops2) as [[w' rs]| |]; reflexivity.
  - destruct (step rows cols usolve w o) as [[w1 r]| |]; cbn [bind]; [|reflexivity|reflexivity]. rewrite IH.
    destruct (run rows cols usolve w1 ops1) as [[w2 rs]| |]; cbn [bind]; [|reflexivity|reflexivity].
    destruct (run rows cols usolve w2 ops2) as [[w3 rs']| |]; reflexivity.
Qed.
Lemma registered_trace (past : list (op M V)) i m a : registered rows cols past i = Some (m, a, true) ->
  exists later earlier, past = later ++ Factorize i m UOK UOK :: earlier /\
    matrix_now earlier m = Some a /\ square rows cols a = true /\
    (forall l' e' j m' st1 st2 a', later = l' ++ Factorize j m' st1 st2 :: e' -> j = i ->
       matrix_now (e' ++ Factorize i m UOK UOK :: earlier) m' = Some a' -> square rows cols a' = false) /\
    ~ In (New i) later /\ ~ In (Destroy i) later.
Proof.
  induction past as [|o past IH]; cbn [registered]; [discriminate|].
  assert (Next : (forall m' st1 st2 a', o = Factorize i m' st1 st2 -> matrix_now past m' = Some a' -> square rows cols a' = false) ->
    o <> New i -> o <> Destroy i -> registered rows cols past i = Some (m, a, true) ->
    exists later earlier, o :: past = later ++ Factorize i m UOK UOK :: earlier /\
    matrix_now earlier m = Some a /\ square rows cols a = true /\
    (forall l' e' j m' st1 st2 a', later = l' ++ Factorize j m' st1 st2 :: e' -> j = i ->
       matrix_now (e' ++ Factorize i m UOK UOK :: earlier) m' = Some a' -> square rows cols a' = false) /\
    ~ In (New i) later /\ ~ In (Destroy i) later).
  { intros H0 H1 H2 H3. destruct (IH H3) as (later & earlier & E & A & B & C & D & F).
    exists (o :: later), earlier. rewrite E. split; [reflexivity|]. split; [exact A|]. split; [exact B|]. split.
    - intros l' e' j m' st1 st2 a' X -> Y. destruct l' as [|o' l']; cbn [app] in X; injection X as -> X.
      + subst e'. eapply H0; [reflexivity|]. rewrite E. exact Y.
      + eapply C; eauto.
    - split; intros [X|X]; auto. }
  destruct o as [j|j m' st1 st2|j rhs soln st|j|j k|m' a'|m']; intros H.
  - destruct (Nat.eqb_spec i j) as [->|N]; [discriminate|]. apply Next; auto; congruence.
  - destruct (Nat.eqb_spec i j) as [->|N]; [|apply Next; auto; try congruence].
    destruct (matrix_now past m') as [a'|] eqn:Em; [destruct (square rows cols a') eqn:Q|].
    + injection H as -> -> Hs. destruct st1, st2; try discriminate. exists [], past. split; [reflexivity|].
      split; [exact Em|]. split; [exact Q|]. split; [|cbn; tauto]. intros [|? l'] e' ? ? ? ? ? X; discriminate X.
    + apply Next; try congruence; auto.
    + apply Next; try congruence; auto.
  - apply Next; auto; congruence.
  - destruct (Nat.eqb_spec i j) as [->|N]; [discriminate|]. apply Next; auto; congruence.
  - apply Next; auto; congruence.
  - apply Next; auto; congruence.
  - apply Next; auto; congruence.
Qed.

Lemma registered_alive (past : list (op M V)) i x : legal rows cols past -> registered rows cols past i = Some x -> alive past i = true.
Proof.
  induction past as [|o past IH]; cbn [registered legal alive]; [discriminate|]. intros [Lo Lp] H.
  destruct o as [j|j m' st1 st2|j rhs soln st|j|j k|m' a'|m']; auto.
  - destruct (Nat.eqb i j); [reflexivity|]. cbn. auto.
  - destruct (Nat.eqb_spec i j) as [->|N]; [apply Lo|auto].
  - destruct (Nat.eqb i j); [discriminate|]. cbn. auto.
Qed.

(* Copying a factorised solver. *)
Lemma copy_state (past : list (op M V)) w i j m a : Inv past w -> registered rows cols past i = Some (m, a, true) -> alive past j = false ->
  legal rows cols past ->
  exists s h w1 r1, solvers w i = Some s /\ numeric_ s = Some h /\ mat_ s = Some m /\ order_ s = rows a /\
    step rows cols usolve w (Copy i j) = Ok (w1, r1) /\ solvers w1 i = Some s /\ solvers w1 j = Some s /\
    exists w2 r2, step rows cols usolve w1 (Destroy i) = Ok (w2, r2) /\ solvers w2 j = Some s /\ objs w2 h = None /\
      (forall h, symbolic_ s = Some h -> objs w2 h = None) /\ mats w2 = mats w.
Proof.
  intros I R Aj L. pose proof (registered_alive _ _ _ L R) as Ai. destruct I as [Im Ia Ir Io].
  destruct (solvers w i) as [s|] eqn:Es; [|exfalso; apply (proj1 (Ia i) Ai); exact Es].
  assert (Ej : solvers w j = None). { destruct (solvers w j) eqn:E; [|reflexivity]. exfalso. assert (alive past j = true); [apply Ia; congruence|congruence]. }
  assert (Nij : i <> j) by congruence.
  pose proof (Ir i s Es) as A. rewrite R in A. destruct A as (A1 & A2 & A3 & h & A4 & A5).
  exists s, h. eexists _, _. split; [reflexivity|]. split; [exact A4|]. split; [exact A1|]. split; [exact A2|].
  cbn [step]. unfold copy, the_solver. rewrite Es. cbn [bind]. rewrite Ej. split; [reflexivity|].
  cbn [with_solver solvers]. split; [rewrite upd1_other by auto; exact Es|]. split; [apply upd1_same|].
  set (w1 := with_solver w j (Some s)). unfold destroy, the_solver. cbn [w1 with_solver solvers]. rewrite upd1_other, Es by auto. cbn [bind].
  destruct (freeMem_ok w1 i s (slots w)) as (w2 & E2 & S2 & M2 & O2 & K2).
  { exact Io. } { unfold slots. rewrite Es. reflexivity. } { unfold slots. rewrite Es. reflexivity. }
  change (mkworld (objs w) (next w) (freed w) (upd1 (solvers w) j (Some s)) (mats w)) with w1. rewrite E2. cbn [bind].
  eexists _, _. split; [reflexivity|]. cbn [with_solver solvers objs mats]. rewrite upd1_other by auto.
  split; [rewrite S2; apply upd1_same|].
  assert (Dead : forall b h', slots w i b = Some h' -> objs w2 h' = None).
  { intros b h' Hh. destruct (objs w2 h') eqn:E; [|reflexivity]. exfalso.
    destruct (ow_live _ _ _ _ O2 h') as (k & c & X); [congruence|].
    destruct (Nat.eq_dec k i) as [->|N].
    - revert X. unfold slot_set. rewrite Nat.eqb_refl. destruct c; discriminate.
    - assert (Y : slots w k c = Some h'). { revert X. unfold slot_set. destruct (Nat.eqb_spec k i); [congruence|]. auto. }
      destruct (ow_uniq _ _ _ _ Io _ _ _ _ _ Y Hh). congruence. }
  split; [apply (Dead true); unfold slots; rewrite Es; exact A4|]. split; [|exact M2].
  intros h' Hh. apply (Dead false). unfold slots. rewrite Es. exact Hh.
Qed.
End Proofs.
