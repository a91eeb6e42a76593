(* GmresMemProofs.v - two runs of GMRES side by side that differ in what the work arrays held before. *)
From Coq Require Import ZArith List Lia Bool Arith.
From Verif Require Import Base Loops Num GmresModel GmresProofs GmresMemSpec.
Import ListNotations.
Local Open Scope nat_scope.

(* two outcomes of the same kind, with related values *)
Definition orel {X Y} (R : X -> Y -> Prop) (o : outcome X) (o' : outcome Y) : Prop :=
  match o, o' with Ok a, Ok b => R a b | Throw, Throw => True | UB, UB => True | _, _ => False end.
Lemma orel_bind {X Y X' Y'} (R : X -> Y -> Prop) (S : X' -> Y' -> Prop) o o' f g : orel R o o' -> (forall a b, o = Ok a -> o' = Ok b -> R a b -> orel S (f a) (g b)) -> orel S (bind o f) (bind o' g).
Proof. destruct o, o'; cbn [orel bind]; intros H K; try contradiction; try exact I. apply K; auto. Qed.
Lemma orel_eq {X} (o : outcome X) : orel eq o o.
Proof. destruct o; cbn; auto. Qed.
Lemma orel_same {X Y Z} (S : X -> Y -> Prop) (o : outcome Z) f g : (forall a, o = Ok a -> orel S (f a) (g a)) -> orel S (bind o f) (bind o g).
Proof. intro H. apply (orel_bind eq); [apply orel_eq|]. intros a b E _ <-. apply H, E. Qed.
Lemma eq_orel {X} (o o' : outcome X) : orel eq o o' -> o = o'.
Proof. destruct o, o'; cbn; intro H; try contradiction; congruence. Qed.
Lemma orel_for {X Y} (R : nat -> X -> Y -> Prop) f g n : forall lo s s', R lo s s' ->
  (forall j s s', lo <= j < lo + n -> R j s s' -> orel (R (S j)) (f j s) (g j s')) -> orel (R (lo + n)) (for_from lo n f s) (for_from lo n g s').
Proof.
  induction n as [|n IH]; intros lo s s' H K; cbn [for_from]; [rewrite Nat.add_0_r; exact H|].
  apply (orel_bind (R (S lo))); [apply K; [lia|exact H]|]. intros a b _ _ Hab. replace (lo + S n) with (S lo + n) by lia. apply IH; [exact Hab|]. intros j t t' Hj. apply K. lia.
Qed.

(* two matrices of one shape that agree where P says so *)
Definition agree {T} (P : nat -> nat -> Prop) (M M' : mat T) : Prop := mrows M = mrows M' /\ mcols M = mcols M' /\ forall r c, P r c -> ment M r c = ment M' r c.
Lemma agree_mono {T} (P Q : nat -> nat -> Prop) (M M' : mat T) : (forall r c, Q r c -> P r c) -> agree P M M' -> agree Q M M'.
Proof. intros H (A & B & C). split; [exact A|]. split; [exact B|]. auto. Qed.
Lemma agree_inb {T} P (M M' : mat T) i j : agree P M M' -> inb M i j = inb M' i j.
Proof. intros (A & B & _). unfold inb. rewrite A, B. reflexivity. Qed.
Lemma mget_agree {T} P (M M' : mat T) i j : agree P M M' -> P i j -> mget M i j = mget M' i j.
Proof. intros H HP. unfold mget. rewrite (agree_inb P M M' i j H). destruct H as (_ & _ & H). rewrite (H i j HP). reflexivity. Qed.
Lemma mset_agree {T} (P Q : nat -> nat -> Prop) (M M' : mat T) i j v : agree P M M' -> (forall r c, Q r c -> (r = i /\ c = j) \/ P r c) -> orel (agree Q) (mset M i j v) (mset M' i j v).
Proof.
  intros H HQ. unfold mset. rewrite (agree_inb P M M' i j H). destruct H as (A & B & H). destruct (inb M' i j); [|exact I].
  cbn [orel]. split; [exact A|]. split; [exact B|]. intros r c K. cbn [ment]. destruct (Nat.eqb_spec r i), (Nat.eqb_spec c j); cbn [andb]; try reflexivity; apply H; destruct (HQ r c K); tauto.
Qed.
Lemma getcol_agree {T} P (M M' : mat T) j : agree P M M' -> (forall r, P r j) -> getcol M j = getcol M' j.
Proof. intros (A & B & H) HP. unfold getcol. rewrite A, B. destruct (j <? mcols M'); [|reflexivity]. f_equal. apply map_ext. intro r. apply H, HP. Qed.
Lemma setcol_agree {T} (A : arith T) (P Q : nat -> nat -> Prop) (M M' : mat T) j v : agree P M M' -> (forall r c, Q r c -> c = j \/ P r c) -> orel (agree Q) (setcol A M j v) (setcol A M' j v).
Proof.
  intros (R & C & H) HQ. unfold setcol. rewrite R, C. destruct (_ && _); [|exact I]. cbn [orel]. split; [reflexivity|]. split; [reflexivity|].
  intros r c K. cbn [ment]. destruct (Nat.eqb_spec c j); [reflexivity|]. apply H. destruct (HQ r c K); tauto.
Qed.
Lemma flat_cm_length {T} (M : mat T) : length (flat_cm M) = mcols M * mrows M.
Proof.
  unfold flat_cm. rewrite <- (seq_length (mcols M) 0) at 2. induction (seq 0 (mcols M)) as [|c l IH]; [reflexivity|]. cbn [map concat]. rewrite app_length, map_length, seq_length, IH. cbn. lia.
Qed.
Lemma flat_cm_at {T} (M : mat T) r c : r < mrows M -> c < mcols M -> nth_error (flat_cm M) (c * mrows M + r) = Some (ment M r c).
Proof.
  intros Hr Hc. unfold flat_cm. assert (K : forall n lo c, c < n -> nth_error (concat (map (fun j => map (fun i => ment M i j) (seq 0 (mrows M))) (seq lo n))) (c * mrows M + r) = Some (ment M r (lo + c))).
  { induction n as [|n IH]; intros lo d Hd; [lia|]. cbn [seq map concat]. destruct d as [|d].
    - rewrite nth_error_app1 by (rewrite map_length, seq_length; lia). cbn [Nat.mul Nat.add]. rewrite nth_error_map, (nth_error_nth' _ 0) by (rewrite seq_length; lia). rewrite seq_nth by lia. cbn. rewrite Nat.add_0_r. reflexivity.
    - rewrite nth_error_app2 by (rewrite map_length, seq_length; lia). rewrite map_length, seq_length. replace (S d * mrows M + r - mrows M) with (d * mrows M + r) by lia. rewrite IH by lia. do 2 f_equal. lia. }
  rewrite (K (mcols M) 0 c Hc). reflexivity.
Qed.

Section Mem.
Context {T : Type} (A : arith T).
Variable isfin : T -> bool.
Variable Env : Type.
Variables mvec precon : Env -> list T -> list T -> Env * bool * list T.
Variable dtrsv : nat -> nat -> list T -> list T -> list T.
Variable dgemv : nat -> nat -> nat -> list T -> list T -> list T.
Variable drotg : T -> T -> T * T * T.
Hypothesis Hm : ignores_output mvec.
Hypothesis Hp : ignores_output precon.
Hypothesis Htr : reads_upper dtrsv.
Hypothesis Hge : reads_block dgemv.
Local Notation zero := (fofn A 0).

Lemma orel_mono {X Y} (R S : X -> Y -> Prop) o o' : (forall a b, R a b -> S a b) -> orel R o o' -> orel S o o'.
Proof. destruct o, o'; cbn; auto. Qed.

Lemma mgs_agree V V' i w H H' : agree (fun _ c => c <= i) V V' -> agree (fun r c => c < i /\ r <= c + 1) H H' ->
  orel (fun p q => fst p = fst q /\ agree (fun r c => (c < i /\ r <= c + 1) \/ (c = i /\ r <= i)) (snd p) (snd q)) (mgs A V i (w, H)) (mgs A V' i (w, H')).
Proof.
  intros HV HH. unfold mgs, for_.
  eapply orel_mono; [|apply (orel_for (fun j p q => fst p = fst q /\ agree (fun r c => (c < i /\ r <= c + 1) \/ (c = i /\ r < j)) (snd p) (snd q)) _ _ (S i) 0)].
  - intros p q (E & K). split; [exact E|]. eapply agree_mono; [|exact K]. cbn. intros r c Q. lia.
  - cbn. split; [reflexivity|]. eapply agree_mono; [|exact HH]. cbn. intros r c Q. lia.
  - intros j (w1 & H1) (w2 & H2) Hj (E & K). cbn [fst snd] in E, K. subst w2. rewrite (getcol_agree _ V V' j HV) by (intros; cbn; lia).
    apply orel_same. intros vj _. apply orel_same. intros h _. apply orel_same. intros w' _.
    apply (orel_bind (agree (fun r c => (c < i /\ r <= c + 1) \/ (c = i /\ r < S j)))); [apply (mset_agree _ _ _ _ _ _ _ K); cbn; intros; lia|].
    intros Ha Hb _ _ Q. cbn. split; [reflexivity|exact Q].
Qed.
Lemma rotate_agree giv i (P : nat -> nat -> Prop) H H' : (forall r, r <= i -> P r i) -> agree P H H' -> orel (agree P) (rotate_col A giv i H) (rotate_col A giv i H').
Proof.
  intros HP HH. unfold rotate_col, for_. apply (orel_for (fun _ => agree P) _ _ i 0 H H' HH).
  intros j M M' Hj K. apply orel_same. intros (c & s) _. rewrite (mget_agree P M M' j i K) by (apply HP; lia). apply orel_same. intros x _.
  rewrite (mget_agree P M M' (j + 1) i K) by (apply HP; lia). apply orel_same. intros y _. cbn [applyGivens].
  apply (orel_bind (agree P)); [apply (mset_agree P _ _ _ _ _ _ K); tauto|]. intros a b _ _ Q. apply (mset_agree P _ _ _ _ _ _ Q); tauto.
Qed.
Lemma mset_other (M M' : mat T) i j v r c : mset M i j v = Ok M' -> r <> i -> ment M' r c = ment M r c.
Proof. unfold mset. destruct (inb M i j); [|discriminate]. intros E Hr. injection E as <-. cbn [ment]. destruct (Nat.eqb_spec r i); [contradiction|reflexivity]. Qed.
Lemma mset_here (M M' : mat T) i j v : mset M i j v = Ok M' -> ment M' i j = v.
Proof. unfold mset. destruct (inb M i j); [|discriminate]. intros E. injection E as <-. cbn [ment]. rewrite !Nat.eqb_refl. reflexivity. Qed.
Lemma rotate_keeps giv i H H' : rotate_col A giv i H = Ok H' -> ment H' (i + 1) i = ment H (i + 1) i.
Proof.
  unfold rotate_col, for_. assert (K : forall n lo M M', lo + n <= i -> for_from lo n (fun j M => bind (getn giv j) (fun '(c, s) => bind (mget M j i) (fun a => bind (mget M (j + 1) i) (fun b =>
    let (a', b') := applyGivens A c s a b in bind (mset M j i a') (fun H1 => mset H1 (j + 1) i b'))))) M = Ok M' -> ment M' (i + 1) i = ment M (i + 1) i).
  { induction n as [|n IH]; intros lo M M' Hl E; cbn [for_from] in E; [congruence|].
    destruct (getn giv lo) as [(c & s)| |]; cbn [bind] in E; try discriminate. destruct (mget M lo i) as [a| |]; cbn [bind] in E; try discriminate. destruct (mget M (lo + 1) i) as [b| |]; cbn [bind] in E; try discriminate.
    cbn [applyGivens] in E. destruct (mset M lo i _) as [M1| |] eqn:E1; cbn [bind] in E; try discriminate. destruct (mset M1 (lo + 1) i _) as [M2| |] eqn:E2; cbn [bind] in E; try discriminate.
    rewrite (IH (S lo) M2 M' ltac:(lia) E), (mset_other _ _ _ _ _ _ _ E2), (mset_other _ _ _ _ _ _ _ E1) by lia. reflexivity. }
  apply K. lia.
Qed.

(* a rotation that has nothing to remove leaves nothing of the residual, or a number that ends the run *)
Definition stops (convTol : T) : Prop := forall a b r c s s0, feq A b zero = true -> drotg a b = (r, c, s) -> feq A r zero = false ->
  let v := fabs A (snd (applyGivens A c s s0 zero)) in isfin v = false \/ fle A v convTol = true.

Definition after (i : nat) (wk wk' : @work T) : Prop :=
  agree (fun _ c => c < i) (k_V wk) (k_V wk') /\ agree (fun r c => c < i /\ r <= c + 1) (k_H wk) (k_H wk') /\ k_s wk = k_s wk' /\ k_giv wk = k_giv wk' /\
  length (k_pv wk) = length (k_pv wk') /\ length (k_w wk) = length (k_w wk').
Definition before (i : nat) (wk wk' : @work T) : Prop :=
  after i wk wk' /\ agree (fun _ c => c <= i) (k_V wk) (k_V wk') /\ forall j v, i < j -> nth_error (k_s wk) j = Some v -> v = zero.
Definition step_rel (i : nat) (x y : @istep T Env) : Prop :=
  match x, y with
  | INext _ wk r e, INext _ wk' r' e' => before (S i) wk wk' /\ r = r' /\ e = e'
  | IBreak _ f wk r e, IBreak _ f' wk' r' e' => f = f' /\ after (S i) wk wk' /\ r = r' /\ e = e'
  | IFail _ f m e, IFail _ f' m' e' => f = f' /\ m = m' /\ e = e'
  | _, _ => False
  end.

Lemma step_agree convTol divTol' i wk wk' e : stops convTol -> before i wk wk' ->
  orel (step_rel i) (inner_step A isfin Env mvec precon drotg convTol divTol' i wk e) (inner_step A isfin Env mvec precon drotg convTol divTol' i wk' e).
Proof.
  intros HS ((HV0 & HH & Es & Eg & Lp & Lw) & HV & Hz). unfold inner_step.
  rewrite (getcol_agree _ _ _ i HV) by (intros; cbn; lia). apply orel_same. intros vi _.
  rewrite (Hp e vi _ (k_pv wk') Lp). destruct (precon e vi (k_pv wk')) as ((e1 & ok1) & pv). destruct ok1; cbn [negb]; [|cbn; auto].
  rewrite (Hm e1 pv _ (k_w wk') Lw). destruct (mvec e1 pv (k_w wk')) as ((e2 & ok2) & w0). destruct ok2; cbn [negb]; [|cbn; auto].
  apply (orel_bind _ _ _ _ _ _ (mgs_agree _ _ i w0 _ _ HV HH)). intros (w & H1) (w' & H1') _ _ (E & K1). cbn [fst snd] in E, K1. subst w'. cbv zeta. set (hn := norm2 A w).
  apply (orel_bind (agree (fun r c => c < S i /\ r <= c + 1))).
  { apply (mset_agree _ _ _ _ _ _ _ K1). cbn. intros r c Q. lia. }
  intros H2 H2' E2 E2' K2.
  apply (orel_bind (fun V V' => agree (fun _ c => c <= i) V V' /\ (feq A hn zero = false -> agree (fun _ c => c <= S i) V V'))).
  { destruct (feq A hn zero) eqn:Ez; cbn [negb]; [cbn; split; [exact HV|discriminate]|].
    eapply orel_mono; [|apply (setcol_agree A (fun _ c => c <= i) (fun _ c => c <= S i) _ _ (i + 1)); [exact HV|cbn; intros; lia]].
    intros V V' Q. split; [eapply agree_mono; [|exact Q]; cbn; intros; lia|intros _; exact Q]. }
  intros V1 V1' _ _ (KV & KV1). rewrite Eg.
  apply (orel_bind (agree (fun r c => c < S i /\ r <= c + 1))).
  { apply rotate_agree; [intros; cbn; lia|exact K2]. }
  intros H3 H3' E3 E3' K3.
  rewrite (mget_agree _ H3 H3' i i K3) by (cbn; lia). apply orel_same. intros x _.
  rewrite (mget_agree _ H3 H3' (i + 1) i K3) by (cbn; lia). apply orel_same. intros y Ey.
  assert (Ehn : y = hn). { unfold mget in Ey. destruct (inb H3' (i + 1) i); [|discriminate]. injection Ey as <-. rewrite (rotate_keeps _ _ _ _ E3'). apply (mset_here _ _ _ _ _ E2'). }
  subst y. destruct (drotg x hn) as ((r & c) & sn) eqn:Ed.
  apply (orel_bind (agree (fun r c => c < S i /\ r <= c + 1))); [apply (mset_agree _ _ _ _ _ _ _ K3); tauto|]. intros H4 H4' _ _ K4.
  apply (orel_bind (agree (fun r c => c < S i /\ r <= c + 1))); [apply (mset_agree _ _ _ _ _ _ _ K4); tauto|]. intros H5 H5' _ _ K5.
  apply orel_same. intros giv' _. destruct (feq A r zero) eqn:Er; [cbn; auto|]. rewrite <- Es.
  apply orel_same. intros s0 _. apply orel_same. intros s1 Es1.
  assert (Z1 : s1 = zero). { unfold getn in Es1. destruct (nth_error (k_s wk) (i + 1)) as [v|] eqn:En; [|discriminate]. injection Es1 as <-. apply (Hz (i + 1) v ltac:(lia) En). }
  subst s1. destruct (applyGivens A c sn s0 zero) as (s0' & s1') eqn:Eap.
  apply orel_same. intros sa Esa. apply orel_same. intros sb Esb. cbv zeta.
  assert (AF : after (S i) (Work V1 H5 sb giv' pv w) (Work V1' H5' sb giv' pv w)).
  { split; [eapply agree_mono; [|exact KV]; cbn; intros; lia|]. split; [exact K5|]. cbn. auto. }
  destruct (isfin (fabs A s1')) eqn:Ef; cbn [negb]; [|cbn; auto].
  destruct (fle A (fabs A s1') convTol) eqn:Ec; [cbn; auto|]. destruct (fle A divTol' (fabs A s1')); [cbn; auto|].
  cbn [orel step_rel]. split; [|auto]. split; [exact AF|]. cbn [k_V k_s]. split.
  - apply KV1. destruct (feq A hn zero) eqn:Ez; [|reflexivity]. exfalso. pose proof (HS x hn r c sn s0 Ez Ed Er) as Q. cbv zeta in Q. rewrite Eap in Q. cbn [snd] in Q. destruct Q; congruence.
  - intros j v Hj En. unfold setn in Esa, Esb. destruct (i <? length (k_s wk)); [|discriminate]. injection Esa as <-. destruct (i + 1 <? length _); [|discriminate]. injection Esb as <-.
    rewrite !nth_error_upd_neq in En by lia. apply (Hz j v ltac:(lia) En).
Qed.

Definition result_rel (x y : @iresult T Env) : Prop :=
  match x, y with
  | IUpdate _ f iu i wk r e, IUpdate _ f' iu' i' wk' r' e' => f = f' /\ iu = iu' /\ i = i' /\ after iu wk wk' /\ r = r' /\ e = e'
  | IReturn _ f m i e, IReturn _ f' m' i' e' => f = f' /\ m = m' /\ i = i' /\ e = e'
  | _, _ => False
  end.
Lemma loop_agree convTol divTol' : stops convTol -> forall n i inner wk wk' rn e, before i wk wk' ->
  orel result_rel (inner_loop A isfin Env mvec precon drotg convTol divTol' n i inner wk rn e) (inner_loop A isfin Env mvec precon drotg convTol divTol' n i inner wk' rn e).
Proof.
  intros HS. induction n as [|n IH]; intros i inner wk wk' rn e HB; cbn [inner_loop].
  - cbn. destruct HB. auto 10.
  - apply (orel_bind _ _ _ _ _ _ (step_agree convTol divTol' i wk wk' e HS HB)). intros x y _ _ Hxy.
    destruct x, y; cbn [step_rel] in Hxy; try contradiction.
    + destruct Hxy as (B & <- & <-). apply IH, B.
    + destruct Hxy as (<- & B & <- & <-). cbn. replace (i + 1) with (S i) by lia. auto 10.
    + destruct Hxy as (<- & <- & <-). cbn. auto.
Qed.

Lemma back_agree n H H' s : agree (fun r c => c < n /\ r <= c + 1) H H' -> backSolve dtrsv n H s = backSolve dtrsv n H' s.
Proof.
  intros (R & C & K). unfold backSolve. rewrite R, C. destruct (_ && _) eqn:E; [|reflexivity]. apply andb_true_iff in E as (E & _). apply andb_true_iff in E as (E1 & E2). apply Nat.leb_le in E1, E2. f_equal.
  apply Htr; [exact E1|rewrite !flat_cm_length, R, C; reflexivity|rewrite flat_cm_length, R, C; apply Nat.mul_le_mono_r; exact E2|].
  intros r c Hr Hc. rewrite <- R at 1. rewrite !flat_cm_at by lia. rewrite K by lia. reflexivity.
Qed.
Lemma times_agree n V V' y w w' : agree (fun _ c => c < n) V V' -> length w = length w' -> matTimesVec dgemv n V y w = matTimesVec dgemv n V' y w'.
Proof.
  intros (R & C & K) L. unfold matTimesVec. rewrite R, C, L. destruct (_ && _) eqn:E; [|reflexivity]. apply andb_true_iff in E as (E & _). apply andb_true_iff in E as (E1 & _). apply Nat.leb_le in E1. f_equal.
  apply Hge; [lia|rewrite !flat_cm_length, R, C; reflexivity|rewrite flat_cm_length, R, C; apply Nat.mul_le_mono_r; exact E1|].
  intros r c Hr Hc. rewrite <- R at 1. rewrite !flat_cm_at by lia. rewrite K by lia. reflexivity.
Qed.

(* what is left over of the work arrays when a cycle starts *)
Definition alike (wk wk' : @work T) : Prop :=
  agree (fun _ _ => False) (k_V wk) (k_V wk') /\ agree (fun _ _ => False) (k_H wk) (k_H wk') /\ length (k_s wk) = length (k_s wk') /\ k_giv wk = k_giv wk' /\
  length (k_pv wk) = length (k_pv wk') /\ length (k_w wk) = length (k_w wk').
Lemma zeros_same (l l' : list T) : length l = length l' -> map (fun _ => zero) l = map (fun _ => zero) l'.
Proof. revert l'. induction l as [|a l IH]; intros [|b l'] H; cbn in *; try discriminate; [reflexivity|]. f_equal. apply IH. lia. Qed.
Definition out_rel (x y : @oresult T Env) : Prop :=
  match x, y with
  | ODone _ f t i k x w r e, ODone _ f' t' i' k' x' w' r' e' => f = f' /\ t = t' /\ i = i' /\ k = k' /\ x = x' /\ length w = length w' /\ r = r' /\ e = e'
  | OReturn _ o x e, OReturn _ o' x' e' => o = o' /\ x = x' /\ e = e'
  | _, _ => False
  end.
Lemma outer_agree p ks b inv convTol divTol' : stops convTol -> forall n k inner outer wk wk' x r rn e, alike wk wk' ->
  orel out_rel (outer_loop A isfin Env mvec precon dtrsv dgemv drotg p ks b inv convTol divTol' n k inner outer wk x r rn e)
    (outer_loop A isfin Env mvec precon dtrsv dgemv drotg p ks b inv convTol divTol' n k inner outer wk' x r rn e).
Proof.
  intros HS. induction n as [|n IH]; intros k inner outer wk wk' x r rn e (HV & HH & Ls & Eg & Lp & Lw); cbn [outer_loop].
  - cbn. auto 10.
  - cbv zeta. apply (orel_bind (agree (fun _ c => c <= 0))); [apply (setcol_agree A _ _ _ _ _ _ HV); cbn; intros; lia|]. intros V0 V0' _ _ KV.
    rewrite (zeros_same _ _ Ls). apply orel_same. intros s0 E0. rewrite Eg.
    apply (orel_bind _ _ _ _ _ _ (loop_agree convTol divTol' HS ks 0 inner (Work V0 (k_H wk) s0 (k_giv wk') (k_pv wk) (k_w wk)) (Work V0' (k_H wk') s0 (k_giv wk') (k_pv wk') (k_w wk')) rn e
      ltac:(split; [split; [eapply agree_mono; [|exact KV]; cbn; intros; lia|split; [eapply agree_mono; [|exact HH]; cbn; intros; lia|cbn; auto]]|split; [exact KV|];
        intros j v Hj En; cbn [k_s] in En; unfold setn in E0; destruct (0 <? _); [|discriminate]; injection E0 as <-; rewrite nth_error_upd_neq in En by lia;
        apply nth_error_In, in_map_iff in En as (u & <- & _); reflexivity]))).
    intros X Y _ _ HXY. destruct X as [f iu i w1 r1 e1|f m i e1], Y as [f' iu' i' w1' r1' e1'|f' m' i' e1']; cbn [result_rel] in HXY; try contradiction.
    + destruct HXY as (<- & <- & <- & (AV & AH & As & Ag & Ap & Aw) & <- & <-). rewrite (back_agree _ _ _ _ AH), As. apply orel_same. intros y _.
      rewrite (times_agree _ _ _ _ _ _ AV Aw). apply orel_same. intros w2 _.
      rewrite (Hp e1 w2 _ (k_pv w1') Ap). destruct (precon e1 w2 (k_pv w1')) as ((e2 & ok2) & pv). destruct ok2; cbn [negb]; [|cbn; auto].
      apply orel_same. intros x' _. destruct f; try (cbn; auto 10; fail).
      destruct (mvec e2 x' w2) as ((e3 & ok3) & w3). destruct ok3; cbn [negb]; [|cbn; auto].
      apply orel_same. intros r' _. destruct (isfin (norm2 A r')); cbn [negb]; [|cbn; auto]. destruct (fle A (norm2 A r') convTol); [cbn; auto 10|]. destruct (fle A divTol' (norm2 A r')); [cbn; auto 10|].
      destruct (stagnated A (stgTol p) x' pv); [cbn; auto 10|]. apply IH. split; [eapply agree_mono; [|exact AV]; tauto|]. split; [eapply agree_mono; [|exact AH]; tauto|]. cbn. auto.
    + destruct HXY as (<- & <- & <- & <-). cbn. auto.
Qed.
Lemma finish_agree b inv convTol o o' : out_rel o o' -> finish A isfin Env mvec b inv convTol o = finish A isfin Env mvec b inv convTol o'.
Proof.
  destruct o as [f t i k x w r e|g x e], o' as [f' t' i' k' x' w' r' e'|g' x' e']; cbn [out_rel]; try contradiction.
  - intros (<- & <- & <- & <- & <- & L & <- & <-). cbn [finish]. rewrite (Hm e x w w' L). reflexivity.
  - intros (<- & <- & <-). reflexivity.
Qed.

Lemma gmres_agree p b x e junk junk' junkm junkm' : stops (fmax A (fmul A (relTol p) (if feq A (norm2 A b) zero then fofn A 1 else norm2 A b)) (absTol p)) ->
  gmres A isfin Env mvec precon dtrsv dgemv drotg junk junkm p b x e = gmres A isfin Env mvec precon dtrsv dgemv drotg junk' junkm' p b x e.
Proof.
  intros HS. unfold gmres. destruct (negb (checkParams A p)); [reflexivity|]. cbv zeta. destruct (negb _); [reflexivity|].
  set (ct := fmax A _ _) in *.
  set (wk := fun (j : nat -> T) (jm : nat -> nat -> T) => Work (mkmat (length x) (Nat.min (length x) (Z.to_nat (kspaceSz p)) + 1) jm)
    (mkmat (Nat.min (length x) (Z.to_nat (kspaceSz p)) + 1) (Nat.min (length x) (Z.to_nat (kspaceSz p))) jm) (map j (seq 0 (Nat.min (length x) (Z.to_nat (kspaceSz p)) + 1)))
    (repeat (zero, zero) (Nat.min (length x) (Z.to_nat (kspaceSz p)))) (map j (seq 0 (length x)))).
  assert (K : forall divTol' r rn w w' e, length w = length w' -> bind (outer_loop A isfin Env mvec precon dtrsv dgemv drotg p (Nat.min (length x) (Z.to_nat (kspaceSz p))) b
      (fdiv A (fofn A 1) (if feq A (norm2 A b) zero then fofn A 1 else norm2 A b)) ct divTol' (Z.to_nat (maxits p)) 0 0 0 (wk junk junkm w) x r rn e)
      (finish A isfin Env mvec b (fdiv A (fofn A 1) (if feq A (norm2 A b) zero then fofn A 1 else norm2 A b)) ct) =
    bind (outer_loop A isfin Env mvec precon dtrsv dgemv drotg p (Nat.min (length x) (Z.to_nat (kspaceSz p))) b
      (fdiv A (fofn A 1) (if feq A (norm2 A b) zero then fofn A 1 else norm2 A b)) ct divTol' (Z.to_nat (maxits p)) 0 0 0 (wk junk' junkm' w') x r rn e)
      (finish A isfin Env mvec b (fdiv A (fofn A 1) (if feq A (norm2 A b) zero then fofn A 1 else norm2 A b)) ct)).
  { intros dv r rn w w' e' L. apply eq_orel. apply (orel_bind out_rel).
    - apply outer_agree; [exact HS|]. unfold wk, alike. cbn [k_V k_H k_s k_giv k_pv k_w]. unfold agree. cbn [mrows mcols]. rewrite !map_length. intuition.
    - intros o o' _ _ R. rewrite (finish_agree _ _ _ _ _ R). apply orel_eq. }
  unfold wk in K.
  destruct (isNonzero A x).
  - rewrite (Hm e x (map junk (seq 0 (length x))) (map junk' (seq 0 (length x)))) by (rewrite !map_length; reflexivity).
    destruct (mvec e x (map junk' (seq 0 (length x)))) as ((e1 & ok) & w). destruct ok; cbn [negb]; [|reflexivity].
    destruct (vmap2 (fsub A) b w) as [r| |]; cbn [bind]; try reflexivity. destruct (isfin (norm2 A r)); cbn [negb]; [|reflexivity]. destruct (fle A (norm2 A r) ct); [reflexivity|]. apply K. reflexivity.
  - destruct (isfin (norm2 A b)); cbn [negb]; [|reflexivity]. destruct (fle A (norm2 A b) ct); [reflexivity|]. apply K. rewrite !map_length. reflexivity.
Qed.
End Mem.
