(* GmresProofs.v - control flow of GMRES, for any arithmetic and any callbacks. *)
From Coq Require Import ZArith List Lia Bool Arith.
From Verif Require Import Base Loops Num GmresModel GmresSpec BlitzProofs.
Import ListNotations.
Local Open Scope nat_scope.

Section Flow.
Context {T : Type} (A : arith T).
Variable isfin : T -> bool.
Variable Env : Type.
Variable mvec0 precon0 : Env -> list T -> list T -> Env * bool * list T.
Variable dtrsv : nat -> nat -> list T -> list T -> list T.
Variable dgemv : nat -> nat -> nat -> list T -> list T -> list T.
Variable drotg : T -> T -> T * T * T.
Variable junk : nat -> T.
Variable junkm : nat -> nat -> T.
Local Notation mvec := (traced Operator mvec0).
Local Notation precon := (traced Preconditioner precon0).
Notation ET := (Env * list (event T))%type.
Variables N ks : nat.
Hypothesis Hm : keeps_length mvec0 N.
Hypothesis Hp : keeps_length precon0 N.
Hypothesis Htrsv : forall n lda a x, length (dtrsv n lda a x) = length x.
Hypothesis Hgemv : forall m n lda a x, length (dgemv m n lda a x) = m.

Definition wk_ok (wk : work) : Prop :=
  (mrows (k_V wk) = N /\ mcols (k_V wk) = ks + 1) /\ (mrows (k_H wk) = ks + 1 /\ mcols (k_H wk) = ks) /\
  length (k_s wk) = ks + 1 /\ length (k_giv wk) = ks /\ length (k_pv wk) = N /\ length (@k_w T wk) = N.

Definition adds (tr tr' : list (event T)) (n : nat) : Prop :=
  exists evs, tr' = evs ++ tr /\ length evs <= n /\ all_ok evs.
Lemma adds_refl tr n : adds tr tr n.
Proof. exists []. split; [reflexivity|]. split; [cbn; lia|constructor]. Qed.
Lemma adds_cons tr tr' n ev : adds tr tr' n -> ev_ok ev = true -> adds tr (ev :: tr') (S n).
Proof. intros (evs & -> & L & F) H. exists (ev :: evs). split; [reflexivity|]. split; [cbn; lia|]. constructor; auto. Qed.
Lemma adds_trans a b c n m : adds a b n -> adds b c m -> adds a c (n + m).
Proof.
  intros (e1 & -> & L1 & F1) (e2 & -> & L2 & F2). exists (e2 ++ e1). rewrite app_assoc. split; [reflexivity|].
  rewrite app_length. split; [lia|]. apply Forall_app. auto.
Qed.
Lemma adds_le a b n m : n <= m -> adds a b n -> adds a b m.
Proof. intros H (e1 & -> & L1 & F1). exists e1. split; [reflexivity|]. split; [lia|auto]. Qed.
Lemma adds_ok a b n : adds a b n -> all_ok a -> all_ok b.
Proof. intros (e1 & -> & L1 & F1) H. apply Forall_app. auto. Qed.
Lemma adds_len a b n : adds a b n -> length b <= length a + n.
Proof. intros (e1 & -> & L1 & F1). rewrite app_length. lia. Qed.

Lemma vmap2_ok (f : T -> T -> T) a b : length a = length b ->
  vmap2 f a b = Ok (map (fun p => f (fst p) (snd p)) (combine a b)) /\ length (map (fun p => f (fst p) (snd p)) (combine a b)) = length a.
Proof. intro H. unfold vmap2. rewrite (proj2 (Nat.eqb_eq _ _) H). split; [reflexivity|]. rewrite map_length, combine_length. lia. Qed.
Lemma getcol_ok (m : mat T) j : j < mcols m -> exists v, getcol m j = Ok v /\ length v = mrows m.
Proof. intro H. unfold getcol. rewrite (proj2 (Nat.ltb_lt _ _) H). eexists. split; [reflexivity|]. now rewrite map_length, seq_length. Qed.
Lemma setcol_ok (m : mat T) j v : j < mcols m -> length v = mrows m ->
  exists m', setcol A m j v = Ok m' /\ mrows m' = mrows m /\ mcols m' = mcols m.
Proof. intros H L. unfold setcol. rewrite (proj2 (Nat.ltb_lt _ _) H), (proj2 (Nat.eqb_eq _ _) L). cbn [andb]. eexists. split; [reflexivity|]. split; reflexivity. Qed.
Lemma mset_ok (m : mat T) i j v : i < mrows m -> j < mcols m -> exists m', mset m i j v = Ok m' /\ mrows m' = mrows m /\ mcols m' = mcols m.
Proof. intros. unfold mset. rewrite inb_true by auto. eexists. split; [reflexivity|]. split; reflexivity. Qed.
Lemma getn_lt {X} (l : list X) i : i < length l -> exists v, getn l i = Ok v.
Proof. intro H. unfold getn. destruct (nth_error l i) eqn:E; [eauto|]. apply nth_error_None in E. lia. Qed.
Lemma setn_lt {X} (l : list X) i v : i < length l -> exists l', setn l i v = Ok l' /\ length l' = length l.
Proof. intro H. unfold setn. rewrite (proj2 (Nat.ltb_lt _ _) H). eexists. split; [reflexivity|]. apply upd_length. Qed.

Lemma mgs_ok V i w H : mrows V = N -> i < mcols V -> length w = N -> mrows H = ks + 1 -> mcols H = ks -> i < ks ->
  exists w' H', mgs A V i (w, H) = Ok (w', H') /\ length w' = N /\ mrows H' = ks + 1 /\ mcols H' = ks.
Proof.
  intros VR VC Lw HR HC Hi. unfold mgs.
  match goal with |- exists w' H', for_ ?n ?body ?s = _ /\ _ =>
    destruct (for_inv (fun _ (st : list T * mat T) => length (fst st) = N /\ mrows (snd st) = ks + 1 /\ mcols (snd st) = ks) n body s) as ((w' & H') & E & P) end.
  - auto.
  - intros j (w1 & H1) Hj (L1 & R1 & C1). cbn [fst snd] in *.
    destruct (getcol_ok V j ltac:(lia)) as (vj & -> & Lv). cbn [bind]. unfold vdot.
    destruct (vmap2_ok (fmul A) w1 vj ltac:(lia)) as (-> & _). cbn [bind].
    match goal with |- context [vmap2 ?f w1 vj] => destruct (vmap2_ok f w1 vj ltac:(lia)) as (-> & L2) end. cbn [bind].
    match goal with |- context [mset H1 j i ?v] => destruct (mset_ok H1 j i v ltac:(lia) ltac:(lia)) as (H2 & -> & R2 & C2) end.
    cbn [bind]. eexists. split; [reflexivity|]. cbn [fst snd]. split; [lia|]. split; congruence.
  - exists w', H'. split; [exact E|]. exact P.
Qed.

Lemma rotate_ok giv i H : length giv = ks -> i < ks -> mrows H = ks + 1 -> mcols H = ks ->
  exists H', rotate_col A giv i H = Ok H' /\ mrows H' = ks + 1 /\ mcols H' = ks.
Proof.
  intros Lg Hi HR HC. unfold rotate_col.
  match goal with |- exists H', for_ ?n ?body ?s = _ /\ _ =>
    destruct (for_inv (fun _ (st : mat T) => mrows st = ks + 1 /\ mcols st = ks) n body s) as (H' & E & P) end; [auto| |eauto].
  intros j H1 Hj (R1 & C1). destruct (getn_lt giv j ltac:(lia)) as ((c & s) & ->). cbn [bind].
  rewrite !mget_ok by lia. cbn [bind applyGivens].
  match goal with |- context [mset H1 j i ?v] => destruct (mset_ok H1 j i v ltac:(lia) ltac:(lia)) as (H2 & -> & R2 & C2) end. cbn [bind].
  match goal with |- context [mset H2 (j + 1) i ?v] => destruct (mset_ok H2 (j + 1) i v ltac:(lia) ltac:(lia)) as (H3 & -> & R3 & C3) end.
  eexists. split; [reflexivity|]. split; congruence.
Qed.

Variables convTol divTol' : T.
Local Notation step := (inner_step A isfin ET mvec precon drotg convTol divTol').

Definition fail_ok (f : gflag) (m : gmsg) (i : nat) (tr tr' : list (event T)) : Prop :=
  (f = F_precon_fail /\ m = G_inner_precon /\ exists v out, tr' = Ev Preconditioner v false out :: tr) \/
  (f = F_matvec_fail /\ m = G_inner_matvec /\ exists v out u pv, tr' = Ev Operator v false out :: Ev Preconditioner u true pv :: tr) \/
  (f = F_breakdown /\ m = G_singular i /\ adds tr tr' 2 /\ exists a b, feq A (fst (fst (drotg a b))) (fofn A 0) = true) \/
  (f = F_inf_or_nan /\ m = G_none /\ adds tr tr' 2 /\ exists t, isfin t = false).

Lemma inner_step_ok i wk e tr : wk_ok wk -> i < ks ->
  exists st, step i wk (e, tr) = Ok st /\
  match st with
  | INext _ wk' rn (_, tr') => wk_ok wk' /\ adds tr tr' 2 /\ isfin rn = true
  | IBreak _ f wk' rn (_, tr') => wk_ok wk' /\ adds tr tr' 2 /\ isfin rn = true /\
      ((f = F_success /\ fle A rn convTol = true) \/ (f = F_diverged /\ fle A divTol' rn = true))
  | IFail _ f m (_, tr') => fail_ok f m i tr tr'
  end.
Proof.
  intros ((VR & VC) & (HR & HC) & Ls & Lg & Lp & Lw) Hi. unfold inner_step.
  destruct (getcol_ok (k_V wk) i ltac:(lia)) as (vi & -> & Lvi). cbn [bind]. unfold traced at 1. cbn [fst snd].
  pose proof (Hp e vi (k_pv wk) ltac:(lia) Lp) as Lpv.
  destruct (precon0 e vi (k_pv wk)) as ((e1 & ok1) & pv). cbn [fst snd] in Lpv.
  destruct ok1; cbn [negb]; [|eexists; split; [reflexivity|]; left; eauto].
  specialize (Lpv eq_refl). unfold traced at 1. cbn [fst snd].
  pose proof (Hm e1 pv (k_w wk) Lpv Lw) as Lw0. destruct (mvec0 e1 pv (k_w wk)) as ((e2 & ok2) & w0). cbn [fst snd] in Lw0.
  destruct ok2; cbn [negb]; [|eexists; split; [reflexivity|]; right; left; split; [reflexivity|split; [reflexivity|do 4 eexists; reflexivity]]].
  specialize (Lw0 eq_refl). set (tr' := Ev Operator pv true w0 :: Ev Preconditioner vi true pv :: tr).
  assert (Ad : adds tr tr' 2) by (apply adds_cons; [apply adds_cons; [apply adds_refl|reflexivity]|reflexivity]).
  destruct (mgs_ok (k_V wk) i w0 (k_H wk) VR ltac:(lia) Lw0 HR HC Hi) as (w & H1 & -> & Lw1 & R1 & C1). cbn [bind].
  match goal with |- context [mset H1 (i + 1) i ?v] => destruct (mset_ok H1 (i + 1) i v ltac:(lia) ltac:(lia)) as (H2 & -> & R2 & C2) end. cbn [bind].
  set (hn := norm2 A w).
  match goal with |- context [bind (if ?c then ?s else Ok (k_V wk)) _] =>
    assert (exists V1, (if c then s else Ok (k_V wk)) = Ok V1 /\ mrows V1 = N /\ mcols V1 = ks + 1) as (V1 & -> & VR1 & VC1) end.
  { destruct (negb (feq A hn (fofn A 0))); [|eauto].
    match goal with |- context [setcol A ?V ?j ?v] => destruct (setcol_ok V j v ltac:(lia)) as (V1 & E & R & C) end; [rewrite map_length; lia|].
    exists V1. split; [exact E|]. split; congruence. }
  cbn [bind]. destruct (rotate_ok (k_giv wk) i H2 Lg Hi ltac:(lia) ltac:(lia)) as (H3 & -> & R3 & C3). cbn [bind].
  rewrite !mget_ok by lia. cbn [bind].
  destruct (drotg (ment H3 i i) (ment H3 (i + 1) i)) as ((r & c) & sn) eqn:ED.
  match goal with |- context [mset H3 i i ?v] => destruct (mset_ok H3 i i v ltac:(lia) ltac:(lia)) as (H4 & -> & R4 & C4) end. cbn [bind].
  match goal with |- context [mset H4 (i + 1) i ?v] => destruct (mset_ok H4 (i + 1) i v ltac:(lia) ltac:(lia)) as (H5 & -> & R5 & C5) end. cbn [bind].
  destruct (setn_lt (k_giv wk) i (c, sn) ltac:(lia)) as (giv' & -> & Lg'). cbn [bind].
  destruct (feq A r (fofn A 0)) eqn:Er.
  { eexists. split; [reflexivity|]. right; right; left. split; [reflexivity|]. split; [reflexivity|]. split; [exact Ad|].
    exists (ment H3 i i), (ment H3 (i + 1) i). rewrite ED. exact Er. }
  destruct (getn_lt (k_s wk) i ltac:(lia)) as (s0 & ->). cbn [bind]. destruct (getn_lt (k_s wk) (i + 1) ltac:(lia)) as (s1 & ->). cbn [bind applyGivens].
  match goal with |- context [setn (k_s wk) i ?v] => destruct (setn_lt (k_s wk) i v ltac:(lia)) as (sa & -> & La) end. cbn [bind].
  match goal with |- context [setn sa (i + 1) ?v] => destruct (setn_lt sa (i + 1) v ltac:(lia)) as (sb & -> & Lb) end. cbn [bind].
  match goal with |- context [fabs A ?v] => set (rnrm := fabs A v) in * end.
  set (wk' := Work V1 H5 sb giv' pv w).
  assert (OK : wk_ok wk') by (unfold wk_ok; cbn [k_V k_H k_s k_giv k_pv k_w wk']; repeat split; lia).
  destruct (isfin rnrm) eqn:Ef; cbn [negb]; [|eexists; split; [reflexivity|]; right; right; right; split; [reflexivity|split; [reflexivity|split; [exact Ad|eauto]]]].
  destruct (fle A rnrm convTol) eqn:Ec; [eexists; split; [reflexivity|]; split; [exact OK|split; [exact Ad|split; [exact Ef|left; auto]]]|].
  destruct (fle A divTol' rnrm) eqn:Edv; [eexists; split; [reflexivity|]; split; [exact OK|split; [exact Ad|split; [exact Ef|right; auto]]]|].
  eexists. split; [reflexivity|]. split; [exact OK|]. split; [exact Ad|exact Ef].
Qed.

Local Notation loop := (inner_loop A isfin ET mvec precon drotg convTol divTol').
Lemma inner_loop_ok n : forall i inner wk rn e tr, wk_ok wk -> i + n = ks -> inner <= i \/ True ->
  exists res, loop n i inner wk rn (e, tr) = Ok res /\
  match res with
  | IUpdate _ f iu inn wk' rn' (_, tr') => wk_ok wk' /\ adds tr tr' (2 * n) /\ iu <= ks /\ (inn = inner /\ n = 0 \/ inn < ks) /\
     ((f = F_unconverged /\ iu = ks) \/
      (f = F_success /\ fle A rn' convTol = true) \/ (f = F_diverged /\ fle A divTol' rn' = true))
  | IReturn _ f m inn (_, tr') => exists tr1, adds tr tr1 (2 * n - 2) /\ 0 < n /\ fail_ok f m inn tr1 tr' /\ inn < ks
  end.
Proof.
  induction n as [|n IH]; intros i inner wk rn e tr OK Hi _; cbn [inner_loop].
  - eexists. split; [reflexivity|]. cbn. split; [exact OK|]. split; [apply adds_refl|]. split; [lia|]. split; [auto|]. left. split; [reflexivity|lia].
  - destruct (inner_step_ok i wk e tr OK ltac:(lia)) as (st & -> & Hst). cbn [bind]. destruct st as [wk' rn' (e' & tr')|f wk' rn' (e' & tr')|f m (e' & tr')].
    + destruct Hst as (OK' & Ad & _). destruct (IH (S i) i wk' rn' e' tr' OK' ltac:(lia) ltac:(auto)) as (res & -> & Hres).
      exists res. split; [reflexivity|]. destruct res as [f iu inn wk2 rn2 (e2 & tr2)|f m inn (e2 & tr2)].
      * destruct Hres as (OK2 & Ad2 & Hiu & Hinn & Hf). split; [exact OK2|]. split; [apply adds_le with (2 + 2 * n); [lia|]; eapply adds_trans; eauto|].
        split; [exact Hiu|]. split; [right; destruct Hinn as [(-> & _) | ]; lia|exact Hf].
      * destruct Hres as (tr1 & Ad1 & Hn & Hf & Hinn). exists tr1. split; [apply adds_le with (2 + (2 * n - 2)); [lia|]; eapply adds_trans; eauto|].
        split; [lia|]. split; [exact Hf|exact Hinn].
    + destruct Hst as (OK' & Ad & _ & Hf). eexists. split; [reflexivity|]. cbv beta iota. split; [exact OK'|].
      split; [eapply adds_le; [|exact Ad]; lia|]. split; [lia|]. split; [right; lia|]. right. exact Hf.
    + eexists. split; [reflexivity|]. cbv beta iota. exists tr. split; [apply adds_refl|]. split; [lia|]. split; [exact Hst|lia].
Qed.

(* --- the outer loop --- *)
Variable p : @gparams T.
Variable b : list T.
Hypothesis Lb : length b = N.
Variable bnrmInv : T.
Local Notation outer := (outer_loop A isfin ET mvec precon dtrsv dgemv drotg p ks b bnrmInv convTol divTol').

(* residual norm from a recorded product *)
Definition resid (w : list T) : T := norm2 A (map (fun q => fsub A (fst q) (snd q)) (combine b w)).

(* what is known when the loop is left *)
Definition done_ok (f : gflag) (test : bool) (x' : list T) (rn : T) (mx outer_k : nat) (tr' : list (event T)) : Prop :=
  (f = F_success /\ test = testTrueRnrm p /\ fle A rn convTol = true) \/
  (f = F_success /\ test = false /\ fle A rn convTol = true /\ exists w tl, tr' = Ev Operator x' true w :: tl /\ rn = resid w) \/
  (f = F_diverged /\ fle A divTol' rn = true) \/
  (f = F_stagnation /\ exists w pv u tl, tr' = Ev Operator x' true w :: Ev Preconditioner u true pv :: tl /\ rn = resid w /\
     forall j, j < N -> feq A (nth j x' (fofn A 0)) (fofn A 0) = true \/
        flt A (fmul A (stgTol p) (fabs A (nth j x' (fofn A 0)))) (fabs A (nth j pv (fofn A 0))) = false) \/
  (f = F_unconverged /\ (mx = 0 \/ outer_k + 1 = mx)).

Definition ret_ok (g : @gout T) (x0 x' : list T) (k : nat) (tr0 tr' : list (event T)) : Prop :=
  (exists tr1, all_ok tr1 /\ fail_ok (g_flag g) (g_msg g) (g_inner g) tr1 tr' /\ g_inner g < ks /\ (g_outer g = k -> x' = x0)) \/
  (g_flag g = F_precon_fail /\ g_msg g = G_update_precon /\ (exists v out tr1, tr' = Ev Preconditioner v false out :: tr1 /\ all_ok tr1) /\ (g_outer g = k -> x' = x0)) \/
  (g_flag g = F_matvec_fail /\ g_msg g = G_update_matvec /\ (exists out tr1, tr' = Ev Operator x' false out :: tr1 /\ all_ok tr1)) \/
  (g_flag g = F_inf_or_nan /\ g_msg g = G_none /\ all_ok tr' /\ exists w tl, tr' = Ev Operator x' true w :: tl /\ isfin (resid w) = false).

Lemma nth_combine_exists {X Y} (P : X * Y -> bool) (l : list X) (m : list Y) dx dy : length l = length m -> existsb P (combine l m) = false ->
  forall j, j < length l -> P (nth j l dx, nth j m dy) = false.
Proof.
  intros L E j Hj. rewrite <- combine_nth by exact L. destruct (P (nth j (combine l m) (dx, dy))) eqn:Q; [|reflexivity].
  rewrite <- E. symmetry. apply existsb_exists. exists (nth j (combine l m) (dx, dy)). split; [|exact Q]. apply nth_In. rewrite combine_length. lia.
Qed.

Lemma outer_ok n : forall k inner out wk x r rn e tr, wk_ok wk -> length x = N -> length r = N -> all_ok tr ->
  (n = 0 -> out + 1 = k \/ k = 0) -> inner < ks \/ inner = 0 -> out <= k ->
  exists res, outer n k inner out wk x r rn (e, tr) = Ok res /\
  match res with
  | ODone _ f test inn ok x' w rn' (_, tr') => length x' = N /\ length w = N /\ all_ok tr' /\ adds tr tr' (n * (2 * ks + 2)) /\
      (inn < ks \/ inn = 0) /\ (ok < k + n \/ n = 0 /\ ok = out) /\ done_ok f test x' rn' (k + n) ok tr'
  | OReturn _ g x' (_, tr') => length x' = N /\ length tr' <= length tr + n * (2 * ks + 2) /\ g_outer g < k + n /\ (g_inner g < ks \/ g_inner g = 0) /\ k <= g_outer g /\ ret_ok g x x' k tr tr'
  end.
Proof.
  induction n as [|n IH]; intros k inner out wk x r rn e tr OK Lx Lr Htr Hk Hin Hok; cbn [outer_loop].
  - eexists. split; [reflexivity|]. cbv beta iota. split; [exact Lx|]. split; [apply OK|]. split; [exact Htr|]. split; [apply adds_refl|]. split; [auto|].
    split; [auto|]. right; right; right; right. split; [reflexivity|]. destruct (Hk eq_refl); lia.
  - destruct OK as ((VR & VC) & (HR & HC) & Ls & Lg & Lp & Lw).
    match goal with |- context [setcol A (k_V wk) 0 ?v] => destruct (setcol_ok (k_V wk) 0 v ltac:(lia)) as (V0 & -> & VR0 & VC0); [rewrite map_length; lia|] end. cbn [bind].
    match goal with |- context [setn ?l 0 rn] => destruct (setn_lt l 0 rn) as (s0 & -> & Ls0); [rewrite map_length; lia|] end. cbn [bind]. rewrite map_length in Ls0.
    set (wk0 := Work V0 (k_H wk) s0 (k_giv wk) (k_pv wk) (k_w wk)).
    assert (OK0 : wk_ok wk0) by (unfold wk_ok; cbn [k_V k_H k_s k_giv k_pv k_w wk0]; repeat split; lia).
    destruct (inner_loop_ok ks 0 inner wk0 rn e tr OK0 ltac:(lia) ltac:(auto)) as (ir & -> & Hir). cbn [bind].
    destruct ir as [f iu inn wk1 rn1 (e1 & tr1)|f m inn (e1 & tr1)].
    2:{ destruct Hir as (tr2 & Ad & Hks & Hf & Hinn). eexists. split; [reflexivity|]. cbv beta iota. cbn [g_flag g_msg g_inner g_outer].
        split; [exact Lx|]. split.
        { assert (length tr1 <= length tr2 + 2) by (destruct Hf as [(_ & _ & v & o & ->) | [(_ & _ & v & o & u & pv & ->) | [(_ & _ & Ad2 & _) | (_ & _ & Ad2 & _)]]];
            [cbn; lia|cbn; lia|exact (adds_len _ _ _ Ad2)|exact (adds_len _ _ _ Ad2)]). pose proof (adds_len _ _ _ Ad). nia. }
        split; [lia|]. split; [left; exact Hinn|]. split; [lia|]. left. exists tr2. split; [eapply adds_ok; eauto|]. split; [exact Hf|]. split; [exact Hinn|reflexivity]. }
    destruct Hir as (OK1 & Ad & Hiu & Hinn & Hf).
    assert (Hin' : inn < ks \/ inn = 0) by (destruct Hinn as [(-> & _) | ]; auto).
    pose proof OK1 as ((VR1 & VC1) & (HR1 & HC1) & Ls1 & Lg1 & Lp1 & Lw1).
    unfold backSolve. rewrite (proj2 (Nat.leb_le iu (mrows (k_H wk1))) ltac:(lia)), (proj2 (Nat.leb_le iu (mcols (k_H wk1))) ltac:(lia)),
      (proj2 (Nat.leb_le iu (length (k_s wk1))) ltac:(lia)). cbn [andb bind].
    set (y := dtrsv _ _ _ _). assert (Ly : length y = ks + 1) by (unfold y; rewrite Htrsv; exact Ls1).
    unfold matTimesVec. rewrite (proj2 (Nat.leb_le iu (mcols (k_V wk1))) ltac:(lia)), (proj2 (Nat.leb_le iu (length y)) ltac:(lia)),
      (proj2 (Nat.eqb_eq (mrows (k_V wk1)) (length (k_w wk1))) ltac:(lia)). cbn [andb bind].
    set (w1 := dgemv _ _ _ _ _). assert (Lw1' : length w1 = N) by (unfold w1; rewrite Hgemv; exact VR1).
    unfold traced at 1. cbn [fst snd]. pose proof (Hp e1 w1 (k_pv wk1) Lw1' Lp1) as Lpv.
    destruct (precon0 e1 w1 (k_pv wk1)) as ((e2 & ok2) & pv). cbn [fst snd] in Lpv.
    assert (A1 : all_ok tr1) by (eapply adds_ok; eauto). pose proof (adds_len _ _ _ Ad) as Al.
    destruct ok2; cbn [negb].
    2:{ eexists. split; [reflexivity|]. cbv beta iota. cbn [g_flag g_msg g_inner g_outer length]. split; [exact Lx|]. split; [nia|]. split; [lia|]. split; [exact Hin'|].
        split; [lia|]. right; left. split; [reflexivity|]. split; [reflexivity|]. split; [do 3 eexists; split; [reflexivity|exact A1]|reflexivity]. }
    specialize (Lpv eq_refl). destruct (vmap2_ok (fadd A) x pv ltac:(lia)) as (Ex & Lx'). rewrite Ex. cbn [bind]. set (x' := map _ (combine x pv)) in *. rewrite Lx in Lx'.
    set (tr2 := Ev Preconditioner w1 true pv :: tr1). assert (A2 : all_ok tr2) by (constructor; [reflexivity|exact A1]).
    destruct Hf as [(-> & Hiu') | Hf].
    2:{ assert (Em : exists res, (match f with F_unconverged => UB | _ => Ok (ODone ET f (testTrueRnrm p) inn k x' w1 rn1 (e2, tr2)) end) = Ok res /\ res = ODone ET f (testTrueRnrm p) inn k x' w1 rn1 (e2, tr2))
          by (destruct Hf as [(-> & _) | (-> & _)]; eauto).
        destruct Em as (res & _ & Eres). exists res. split; [rewrite Eres; destruct Hf as [(-> & _) | (-> & _)]; reflexivity|]. rewrite Eres.
        split; [exact Lx'|]. split; [exact Lw1'|]. split; [exact A2|]. split; [apply adds_le with (S (2 * ks)); [lia|]; apply adds_cons; [exact Ad|reflexivity]|]. split; [exact Hin'|]. split; [left; lia|].
        destruct Hf as [(-> & Hc) | (-> & Hc)]; [left; auto|right; right; left; auto]. }
    unfold traced at 1. cbn [fst snd]. pose proof (Hm e2 x' w1 Lx' Lw1') as Lw2.
    destruct (mvec0 e2 x' w1) as ((e3 & ok3) & w2). cbn [fst snd] in Lw2. destruct ok3; cbn [negb].
    2:{ eexists. split; [reflexivity|]. cbv beta iota. cbn [g_flag g_msg g_inner g_outer length tr2]. split; [exact Lx'|]. split; [nia|]. split; [lia|]. split; [exact Hin'|].
        split; [lia|]. right; right; left. split; [reflexivity|]. split; [reflexivity|]. do 2 eexists. split; [reflexivity|exact A2]. }
    specialize (Lw2 eq_refl). set (tr3 := Ev Operator x' true w2 :: tr2). assert (A3 : all_ok tr3) by (constructor; [reflexivity|exact A2]).
    destruct (vmap2_ok (fsub A) b w2 ltac:(lia)) as (-> & Lr'). cbn [bind]. rewrite Lb in Lr'. fold (resid w2).
    set (r' := map (fun q => fsub A (fst q) (snd q)) (combine b w2)) in *. change (norm2 A r') with (resid w2).
    destruct (isfin (resid w2)) eqn:Efin; cbn [negb].
    2:{ eexists. split; [reflexivity|]. cbv beta iota. cbn [g_flag g_msg g_inner g_outer length tr2 tr3]. split; [exact Lx'|]. split; [nia|]. split; [lia|]. split; [exact Hin'|].
        split; [lia|]. right; right; right. split; [reflexivity|]. split; [reflexivity|]. split; [exact A3|do 2 eexists; split; [reflexivity|exact Efin]]. }
    assert (L3 : adds tr tr3 (2 * ks + 2)) by (apply adds_le with (S (S (2 * ks))); [lia|]; do 2 (apply adds_cons; [|reflexivity]); exact Ad).
    destruct (fle A (resid w2) convTol) eqn:Ec.
    { eexists. split; [reflexivity|]. cbv beta iota. split; [exact Lx'|]. split; [exact Lw2|]. split; [exact A3|]. split; [eapply adds_le; [|exact L3]; lia|]. split; [exact Hin'|]. split; [left; lia|].
      right; left. split; [reflexivity|]. split; [reflexivity|]. split; [exact Ec|]. do 2 eexists. split; reflexivity. }
    destruct (fle A divTol' (resid w2)) eqn:Ed.
    { eexists. split; [reflexivity|]. cbv beta iota. split; [exact Lx'|]. split; [exact Lw2|]. split; [exact A3|]. split; [eapply adds_le; [|exact L3]; lia|]. split; [exact Hin'|]. split; [left; lia|].
      right; right; left. split; [reflexivity|exact Ed]. }
    destruct (stagnated A (stgTol p) x' pv) eqn:Es.
    { eexists. split; [reflexivity|]. cbv beta iota. split; [exact Lx'|]. split; [exact Lw2|]. split; [exact A3|]. split; [eapply adds_le; [|exact L3]; lia|]. split; [exact Hin'|]. split; [left; lia|].
      right; right; right; left. split; [reflexivity|]. do 4 eexists. split; [reflexivity|]. split; [reflexivity|]. intros j Hj.
      unfold stagnated in Es. apply negb_true_iff in Es.
      pose proof (nth_combine_exists _ x' pv (fofn A 0) (fofn A 0) ltac:(lia) Es j ltac:(lia)) as Q. cbv beta iota in Q.
      apply andb_false_iff in Q. destruct Q as [Q|Q]; [left; now apply negb_false_iff in Q|right; exact Q]. }
    set (wk2 := Work (k_V wk1) (k_H wk1) y (k_giv wk1) pv w2).
    assert (OK2 : wk_ok wk2) by (unfold wk_ok; cbn [k_V k_H k_s k_giv k_pv k_w wk2]; repeat split; lia).
    destruct (IH (S k) inn k wk2 x' r' (resid w2) e3 tr3 OK2 Lx' ltac:(lia) A3 ltac:(lia) Hin' ltac:(lia)) as (res & -> & Hres).
    exists res. split; [reflexivity|]. destruct res as [f test inn' ok' x2 w3 rn2 (e4 & tr4)|g x2 (e4 & tr4)].
    + destruct Hres as (H1 & H2 & H3 & H4 & H5 & H6 & H7). split; [exact H1|]. split; [exact H2|]. split; [exact H3|]. split; [apply adds_le with ((2 * ks + 2) + n * (2 * ks + 2)); [lia|]; eapply adds_trans; eauto|]. split; [exact H5|].
      split; [left; destruct H6; lia|]. replace (k + S n) with (S k + n) by lia. exact H7.
    + destruct Hres as (H1 & H2 & H3 & H4 & H5 & H6). split; [exact H1|]. split; [pose proof (adds_len _ _ _ L3); nia|]. split; [lia|]. split; [exact H4|]. split; [lia|].
      destruct H6 as [(tr9 & G1 & G2 & G3 & G4) | [(G1 & G2 & G3 & G4) | [G | G]]].
      * left. exists tr9. split; [exact G1|]. split; [exact G2|]. split; [exact G3|lia].
      * right; left. split; [exact G1|]. split; [exact G2|]. split; [exact G3|lia].
      * right; right; left. exact G.
      * right; right; right. exact G.
Qed.
End Flow.

Lemma norm2_rhs {T} (A : arith T) b : norm2 A b = rhs_norm A b.
Proof.
  unfold norm2, rhs_norm, vsum, sum_sq. f_equal. generalize (fofn A 0). induction b as [|x b IH]; intro z; cbn [map fold_left]; [reflexivity|apply IH].
Qed.
Lemma resid_eq {T} (A : arith T) b w : resid A b w = residual_norm A b w.
Proof. unfold resid. rewrite norm2_rhs. reflexivity. Qed.
Lemma isNonzero_false {T} (A : arith T) x : isNonzero A x = false -> all_zero A x.
Proof.
  intros H t Ht. unfold isNonzero in H. destruct (feq A t (fofn A 0)) eqn:E; [reflexivity|].
  assert (existsb (fun x => negb (feq A x (fofn A 0))) x = true) by (apply existsb_exists; exists t; rewrite E; auto). congruence.
Qed.

Section Whole.
Context {T : Type} (A : arith T).
Variable isfin : T -> bool.
Variable Env : Type.
Variable mvec0 precon0 : Env -> list T -> list T -> Env * bool * list T.
Variable dtrsv : nat -> nat -> list T -> list T -> list T.
Variable dgemv : nat -> nat -> nat -> list T -> list T -> list T.
Variable drotg : T -> T -> T * T * T.
Variable junk : nat -> T.
Variable junkm : nat -> nat -> T.
Local Notation run := (gmres A isfin (Env * list (event T)) (traced Operator mvec0) (traced Preconditioner precon0) dtrsv dgemv drotg junk junkm).

Local Notation summary := (run_explained A isfin drotg).
Lemma initial_norm_app b x tr r0 evs : initial_norm A b x tr r0 -> initial_norm A b x (evs ++ tr) r0.
Proof.
  intros [H|(w & l & -> & E)]; [left; exact H|]. right. exists w, (evs ++ l). rewrite <- app_assoc. auto.
Qed.
Hypothesis Htrsv : forall n lda a x, length (dtrsv n lda a x) = length x.
Hypothesis Hgemv : forall m n lda a x, length (dgemv m n lda a x) = m.

Lemma gmres_ok p b x e : checkParams A p = true -> length b = length x ->
  keeps_length mvec0 (length x) -> keeps_length precon0 (length x) ->
  exists g x' e' tr, run p b x (e, []) = Ok (g, x', (e', tr)) /\ length x' = length x /\
    (Z.of_nat (g_outer g) < maxits p)%Z /\
    (g_inner g < Nat.min (length x) (Z.to_nat (kspaceSz p)) \/ g_inner g = 0) /\
    length tr <= Z.to_nat (maxits p) * (2 * Nat.min (length x) (Z.to_nat (kspaceSz p)) + 2) + 2 /\
    summary p b x g x' tr.
Proof.
  intros Hc Lb Hm Hp. unfold gmres. rewrite Hc. cbn [negb]. rewrite (proj2 (Nat.eqb_eq _ _) Lb). cbn [negb].
  assert (Hmx : (1 <= maxits p)%Z).
  { unfold checkParams in Hc. apply negb_true_iff in Hc. destruct (maxits p <? 1)%Z eqn:E; [|lia]. exfalso. rewrite !orb_true_r in Hc. cbn in Hc. discriminate. }
  set (N := length x) in *. set (ks := Nat.min N (Z.to_nat (kspaceSz p))). rewrite norm2_rhs. fold (scale_norm A b).
  set (tol := tolerance A (relTol p) (absTol p) b).
  change (fmax A (fmul A (relTol p) (scale_norm A b)) (absTol p)) with tol.
  set (inv := fdiv A (fofn A 1) (scale_norm A b)).
  set (w0 := map junk (seq 0 N)). assert (Lw0 : length w0 = N) by (unfold w0; now rewrite map_length, seq_length).
  set (wk := Work (mkmat N (ks + 1) junkm) (mkmat (ks + 1) ks junkm) (map junk (seq 0 (ks + 1))) (repeat (fofn A 0, fofn A 0) ks) (map junk (seq 0 N)) w0).
  assert (start : forall r rn w e1 tr1, length r = N -> length w = N -> all_ok tr1 -> length tr1 <= 1 -> initial_norm A b x tr1 rn ->
    ((exists w, tr1 = [Ev Operator x true w] /\ rn = residual_norm A b w) \/ (tr1 = [] /\ all_zero A x /\ rn = rhs_norm A b)) ->
    exists g x' e' tr, (if negb (isfin rn) then Ok (GOut F_inf_or_nan 0 0 (fofn A 0) G_none, x, (e1, tr1)) else
      if fle A rn tol then Ok (GOut F_success 0 0 (fmul A inv rn) G_none, x, (e1, tr1)) else
      bind (outer_loop A isfin (Env * list (event T)) (traced Operator mvec0) (traced Preconditioner precon0) dtrsv dgemv drotg
              p ks b inv tol (fmul A (divTol p) rn) (Z.to_nat (maxits p)) 0 0 0 (Work (k_V wk) (k_H wk) (k_s wk) (k_giv wk) (k_pv wk) w) x r rn (e1, tr1))
           (finish A isfin (Env * list (event T)) (traced Operator mvec0) b inv tol)) = Ok (g, x', (e', tr)) /\
      length x' = N /\ (Z.of_nat (g_outer g) < maxits p)%Z /\ (g_inner g < ks \/ g_inner g = 0) /\
      length tr <= Z.to_nat (maxits p) * (2 * ks + 2) + 2 /\ summary p b x g x' tr).
  { intros r rn w e1 tr1 Lr Lw Atr Ltr Hin Hin2. destruct (isfin rn) eqn:Ef; cbn [negb].
    2:{ do 4 eexists. split; [reflexivity|]. cbn [g_outer g_inner]. split; [reflexivity|]. split; [lia|]. split; [auto|]. split; [lia|].
        unfold run_explained. cbn [g_flag g_outer g_msg]. split; [exact Atr|]. split; [reflexivity|]. split; [eauto|left; split; [exact Ltr|split; [reflexivity|eauto]]]. }
    destruct (fle A rn tol) eqn:Ec.
    { do 4 eexists. split; [reflexivity|]. cbn [g_outer g_inner]. split; [reflexivity|]. split; [lia|]. split; [auto|]. split; [lia|].
      unfold run_explained. cbn [g_flag g_outer g_msg g_relres]. exists rn, rn. split; [reflexivity|]. split; [exact Ec|].
      destruct Hin2 as [(w' & -> & E) | (-> & Z0 & E)].
      - left. split; [reflexivity|]. split; [exists w', []; auto|]. split; [exact Atr|auto].
      - right; right; right. auto 10. }
    assert (OK : wk_ok N ks (Work (k_V wk) (k_H wk) (k_s wk) (k_giv wk) (k_pv wk) w)).
    { unfold wk_ok; cbn [k_V k_H k_s k_giv k_pv k_w wk mrows mcols]. rewrite !map_length, !seq_length, repeat_length. repeat split; auto. }
    destruct (outer_ok A isfin Env mvec0 precon0 dtrsv dgemv drotg N ks Hm Hp Htrsv Hgemv tol (fmul A (divTol p) rn) p b Lb inv (Z.to_nat (maxits p))
                0 0 0 _ x r rn e1 tr1 OK eq_refl Lr Atr ltac:(lia) ltac:(auto) ltac:(lia)) as (res & -> & Hres). cbn [bind].
    destruct res as [f test inn ok x2 w2 rn2 (e4 & tr4)|g x2 (e4 & tr4)]; cbn [finish].
    2:{ destruct Hres as (H1 & H2 & H3 & H4 & H5 & H6). do 4 eexists. split; [reflexivity|]. split; [exact H1|]. split; [lia|]. split; [exact H4|]. split; [lia|].
        unfold run_explained. destruct H6 as [(tr9 & G1 & G2 & G3 & G4) | [(G1 & G2 & (v & o & tl & G3 & G3') & G4) | [(G1 & G2 & o & tl & G3 & G4) | (G1 & G2 & G3 & w' & tl & G4 & G5)]]].
        - destruct G2 as [(F1 & F2 & v & o & F3) | [(F1 & F2 & v & o & u & pv & F3) | [(F1 & F2 & F3 & F4) | (F1 & F2 & F3 & F4)]]]; rewrite F1.
          + split; [exists v, o, tr9; auto|]. split; [left; exact F2|exact G4].
          + split; [exists v, o, (Ev Preconditioner u true pv :: tr9); split; [exact F3|constructor; [reflexivity|exact G1]]|]. right; left. auto.
          + split; [eapply adds_ok; eauto|]. split; [exact F4|]. split; [exact F2|exact G4].
          + split; [eapply adds_ok; eauto|]. split; [exact F2|]. split; [exact F4|right; left; exact G4].
        - rewrite G1. split; [exists v, o, tl; auto|]. split; [right; exact G2|exact G4].
        - rewrite G1. split; [exists x2, o, tl; auto|]. right; right. exact G2.
        - rewrite G1. split; [exact G3|]. split; [exact G2|]. split; [exists (resid A b w'); exact G5|]. right; right. exists w', tl. rewrite <- resid_eq. auto. }
    destruct Hres as (H1 & H2 & H3 & H4 & H5 & H6 & H7). pose proof (adds_len _ _ _ H4) as L4.
    destruct H4 as (evs & E4 & _). assert (Hin4 : initial_norm A b x tr4 rn) by (rewrite E4; now apply initial_norm_app).
    assert (Hok : (Z.of_nat ok < maxits p)%Z) by lia.
    destruct H7 as [(-> & -> & C1) | [(-> & -> & C1 & w' & tl & C2 & C3) | [(-> & C1) | [(-> & w' & pv & u & tl & C2 & C3 & C4) | (-> & C1)]]]].
    - destruct (testTrueRnrm p) eqn:Et.
      2:{ do 4 eexists. split; [reflexivity|]. cbn [g_outer g_inner]. split; [exact H1|]. split; [exact Hok|]. split; [exact H5|]. split; [lia|].
          unfold run_explained. cbn [g_flag g_outer g_msg g_relres]. exists rn2, rn2. split; [reflexivity|]. split; [exact C1|]. right; right; left. auto. }
      unfold traced at 1. cbn [fst snd]. pose proof (Hm e4 x2 w2 H1 H2) as Lw3. destruct (mvec0 e4 x2 w2) as ((e5 & ok5) & w3). cbn [fst snd] in Lw3. destruct ok5.
      + specialize (Lw3 eq_refl). destruct (vmap2_ok (fsub A) b w3 ltac:(lia)) as (-> & _). cbn [bind].
        change (norm2 A (map (fun q => fsub A (fst q) (snd q)) (combine b w3))) with (resid A b w3). rewrite resid_eq.
        do 4 eexists. split; [reflexivity|]. cbn [g_outer g_inner length]. split; [exact H1|]. split; [exact Hok|]. split; [exact H5|]. split; [lia|].
        unfold run_explained. cbn [g_flag g_outer g_msg g_relres].
        assert (A5 : all_ok (Ev Operator x2 true w3 :: tr4)) by (constructor; [reflexivity|exact H3]).
        destruct (isfin (residual_norm A b w3) && flt A tol (residual_norm A b w3)) eqn:Eb.
        * apply andb_true_iff in Eb. destruct Eb as (Eb1 & Eb2). exists (residual_norm A b w3). split; [reflexivity|]. split; [exists w3, tr4; auto|]. auto.
        * exists (residual_norm A b w3), rn2. split; [reflexivity|]. split; [exact C1|]. left. split; [reflexivity|]. split; [exists w3, tr4; auto|]. split; [exact A5|right; exact Eb].
      + do 4 eexists. split; [reflexivity|]. cbn [g_outer g_inner length]. split; [exact H1|]. split; [exact Hok|]. split; [exact H5|]. split; [lia|].
        unfold run_explained. cbn [g_flag g_outer g_msg g_relres]. exists rn2, rn2. split; [reflexivity|]. split; [exact C1|]. right; left. split; [reflexivity|]. split; [exact Et|]. split; [reflexivity|eauto].
    - rewrite resid_eq in C3. do 4 eexists. split; [reflexivity|]. cbn [g_outer g_inner]. split; [exact H1|]. split; [exact Hok|]. split; [exact H5|]. split; [lia|].
      unfold run_explained. cbn [g_flag g_outer g_msg g_relres]. exists rn2, rn2. split; [reflexivity|]. split; [exact C1|]. left. split; [reflexivity|]. split; [exists w', tl; auto|auto].
    - exists (GOut F_diverged inn ok (fmul A inv rn2) G_none), x2, e4, tr4. split; [now destruct test|]. cbn [g_outer g_inner]. split; [exact H1|]. split; [exact Hok|]. split; [exact H5|]. split; [lia|].
      unfold run_explained. cbn [g_flag g_outer g_msg g_relres]. exists rn2, rn. auto.
    - rewrite resid_eq in C3. exists (GOut F_stagnation inn ok (fmul A inv rn2) G_none), x2, e4, tr4. split; [now destruct test|]. cbn [g_outer g_inner]. split; [exact H1|]. split; [exact Hok|]. split; [exact H5|]. split; [lia|].
      unfold run_explained. cbn [g_flag g_outer g_msg g_relres]. exists w', pv, u, tl. rewrite <- C3. auto.
    - exists (GOut F_maxits inn ok (fmul A inv rn2) G_none), x2, e4, tr4. split; [now destruct test|]. cbn [g_outer g_inner]. split; [exact H1|]. split; [exact Hok|]. split; [exact H5|]. split; [lia|].
      unfold run_explained. cbn [g_flag g_outer g_msg g_relres]. split; [lia|auto]. }
  destruct (isNonzero A x) eqn:En.
  - unfold traced at 1. cbn [fst snd]. pose proof (Hm e x w0 eq_refl Lw0) as Lw. destruct (mvec0 e x w0) as ((e1 & ok1) & w). cbn [fst snd] in Lw. destruct ok1; cbn [negb].
    + specialize (Lw eq_refl). destruct (vmap2_ok (fsub A) b w ltac:(lia)) as (-> & Lr). cbn [bind].
      change (norm2 A (map (fun q => fsub A (fst q) (snd q)) (combine b w))) with (resid A b w). rewrite resid_eq.
      apply start; auto; [lia|constructor; [reflexivity|constructor]|right; exists w, []; auto|left; eauto].
    + do 4 eexists. split; [reflexivity|]. cbn [g_outer g_inner length]. split; [reflexivity|]. split; [lia|]. split; [auto|]. split; [lia|].
      unfold run_explained. cbn [g_flag g_outer g_msg]. split; [exists x, w, []; split; [reflexivity|constructor]|]. left. auto.
  - apply start; auto; [constructor|left; split; [now apply isNonzero_false|reflexivity]|right; split; [reflexivity|split; [now apply isNonzero_false|reflexivity]]].
Qed.
End Whole.

(* Recording the calls changes nothing else. *)
Section Erase.
Context {T : Type} (A : arith T).
Variable isfin : T -> bool.
Variable Env : Type.
Variable mvec0 precon0 : Env -> list T -> list T -> Env * bool * list T.
Variable dtrsv : nat -> nat -> list T -> list T -> list T.
Variable dgemv : nat -> nat -> nat -> list T -> list T -> list T.
Variable drotg : T -> T -> T * T * T.
Variable junk : nat -> T.
Variable junkm : nat -> nat -> T.
Notation ET := (Env * list (event T))%type.
Local Notation mv := (traced Operator mvec0).
Local Notation pc := (traced Preconditioner precon0).

Definition estep (s : @istep T ET) : @istep T Env :=
  match s with INext _ w r e => INext Env w r (fst e) | IBreak _ f w r e => IBreak Env f w r (fst e) | IFail _ f m e => IFail Env f m (fst e) end.
Definition omap {X Y} (h : X -> Y) (o : outcome X) : outcome Y := match o with Ok x => Ok (h x) | Throw => Throw | UB => UB end.
Lemma step_erase ct dt i wk et : inner_step A isfin Env mvec0 precon0 drotg ct dt i wk (fst et) = omap estep (inner_step A isfin ET mv pc drotg ct dt i wk et).
Proof.
  unfold inner_step. destruct (getcol (k_V wk) i) as [vi| |]; cbn [bind omap]; auto. unfold traced.
  destruct (precon0 (fst et) vi (k_pv wk)) as ((e1 & ok1) & pv). destruct ok1; cbn [negb]; [|reflexivity]. cbn [fst snd].
  destruct (mvec0 e1 pv (k_w wk)) as ((e2 & ok2) & w0). destruct ok2; cbn [negb]; [|reflexivity].
  repeat first
  [ match goal with |- context [bind ?o _] => destruct o as [?| |]; cbn [bind omap]; auto end
  | match goal with |- context [let '(_, _) := ?q in _] => destruct q end
  | match goal with |- context [if ?c then _ else _] => destruct c end ]; reflexivity.
Qed.
Definition eres (s : @iresult T ET) : @iresult T Env :=
  match s with IUpdate _ f a b w r e => IUpdate Env f a b w r (fst e) | IReturn _ f m i e => IReturn Env f m i (fst e) end.
Lemma loop_erase ct dt n : forall i inner wk rn et, inner_loop A isfin Env mvec0 precon0 drotg ct dt n i inner wk rn (fst et) = omap eres (inner_loop A isfin ET mv pc drotg ct dt n i inner wk rn et).
Proof.
  induction n as [|n IH]; intros; cbn [inner_loop]; [reflexivity|]. rewrite step_erase. destruct (inner_step A isfin ET mv pc drotg ct dt i wk et) as [[wk' rn' e'|f wk' rn' e'|f m e'] | |]; cbn [bind omap estep]; auto.
Qed.
Definition eout (s : @oresult T ET) : @oresult T Env :=
  match s with ODone _ f t i k x w r e => ODone Env f t i k x w r (fst e) | OReturn _ g x e => OReturn Env g x (fst e) end.
Lemma outer_erase p ks b bi ct dt n : forall k inner out wk x r rn et,
  outer_loop A isfin Env mvec0 precon0 dtrsv dgemv drotg p ks b bi ct dt n k inner out wk x r rn (fst et) =
  omap eout (outer_loop A isfin ET mv pc dtrsv dgemv drotg p ks b bi ct dt n k inner out wk x r rn et).
Proof.
  induction n as [|n IH]; intros; cbn [outer_loop]; [reflexivity|].
  destruct (setcol A (k_V wk) 0 _) as [V0| |]; cbn [bind omap]; auto. destruct (setn _ 0 rn) as [s0| |]; cbn [bind omap]; auto.
  rewrite loop_erase. destruct (inner_loop A isfin ET mv pc drotg ct dt ks 0 inner _ rn et) as [[f iu i wk' rn' e'|f m i e'] | |]; cbn [bind omap eres]; auto.
  destruct (backSolve _ _ _ _) as [y| |]; cbn [bind omap]; auto. destruct (matTimesVec _ _ _ _ _) as [w1| |]; cbn [bind omap]; auto.
  unfold traced at 1. destruct (precon0 (fst e') w1 (k_pv wk')) as ((e1 & ok1) & pv). destruct ok1; cbn [negb]; [|reflexivity].
  destruct (vmap2 (fadd A) x pv) as [x'| |]; cbn [bind omap]; auto. destruct f; auto.
  unfold traced at 1. cbn [fst snd]. destruct (mvec0 e1 x' w1) as ((e2 & ok2) & w2). destruct ok2; cbn [negb]; [|reflexivity].
  destruct (vmap2 (fsub A) b w2) as [r'| |]; cbn [bind omap]; auto. destruct (isfin (norm2 A r')); cbn [negb]; [|reflexivity].
  destruct (fle A _ ct); [reflexivity|]. destruct (fle A dt _); [reflexivity|]. destruct (stagnated A _ _ _); [reflexivity|].
  exact (IH (S k) i k _ x' r' _ (e2, Ev Operator x' true w2 :: Ev Preconditioner w1 true pv :: snd e')).
Qed.
Lemma gmres_erase p b x et :
  gmres A isfin Env mvec0 precon0 dtrsv dgemv drotg junk junkm p b x (fst et) =
  omap (fun '(g, x', et') => (g, x', fst et')) (gmres A isfin ET mv pc dtrsv dgemv drotg junk junkm p b x et).
Proof.
  unfold gmres. destruct (checkParams A p); cbn [negb]; [|reflexivity]. destruct (length b =? length x); cbn [negb]; [|reflexivity].
  assert (fin : forall bi ct o, finish A isfin Env mvec0 b bi ct (eout o) = omap (fun '(g, x', et') => (g, x', fst et')) (finish A isfin ET mv b bi ct o)).
  { intros bi ct [f t i k x' w r e|g x' e]; cbn [eout finish]; [|reflexivity]. destruct f, t; try reflexivity.
    unfold traced. cbn [fst snd]. destruct (mvec0 (fst e) x' w) as ((e1 & ok1) & w1). destruct ok1; [|reflexivity]. destruct (vmap2 (fsub A) b w1); reflexivity. }
  destruct (isNonzero A x).
  - unfold traced at 1. destruct (mvec0 (fst et) x _) as ((e1 & ok1) & w). destruct ok1; cbn [negb]; [|reflexivity].
    destruct (vmap2 (fsub A) b w) as [r| |]; cbn [bind omap]; auto. destruct (isfin _); cbn [negb]; [|reflexivity]. destruct (fle A _ _); [reflexivity|].
    match goal with |- bind (outer_loop _ _ _ _ _ _ _ _ ?p ?ks ?b ?bi ?ct ?dt ?n ?k ?i ?o ?wk ?x ?r ?rn e1) _ = _ =>
      change e1 with (fst (e1, Ev Operator x true w :: snd et)); rewrite (outer_erase p ks b bi ct dt n k i o wk x r rn) end.
    destruct (outer_loop _ _ ET _ _ _ _ _ _ _ _ _ _ _ _ _ _ _ _ _ _ _ _) as [o| |]; cbn [bind omap]; auto.
  - destruct (isfin _); cbn [negb]; [|reflexivity]. destruct (fle A _ _); [reflexivity|]. rewrite outer_erase.
    destruct (outer_loop _ _ ET _ _ _ _ _ _ _ _ _ _ _ _ _ _ _ _ _ _ _ _) as [o| |]; cbn [bind omap]; auto.
Qed.
End Erase.
