(* DblProofs.v - facts about IEEE doubles (Coq's SpecFloat), obtained through Flocq. *)
From Coq Require Import ZArith Lia Reals Lra SpecFloat.
From Flocq Require Import Core.Core IEEE754.BinarySingleNaN.
From Verif Require Import Num.

Local Instance Hprec : Prec_gt_0 53 := eq_refl _.
Local Instance Hmax : Prec_lt_emax 53 1024 := eq_refl _.
Notation bin := (binary_float 53 1024).

Lemma rne_equiv s m l : SpecFloat.round_nearest_even m l = choice_mode mode_NE s m l.
Proof. destruct l as [|c]; [reflexivity|]. destruct c; [|reflexivity..]. simpl. unfold Round.cond_incr. now destruct (Z.even m). Qed.

Lemma bra_equiv sx mx ex lx : SpecFloat.binary_round_aux 53 1024 sx mx ex lx = binary_round_aux 53 1024 mode_NE sx mx ex lx.
Proof.
  unfold SpecFloat.binary_round_aux, binary_round_aux. set (mrse' := SpecFloat.shr_fexp _ _ _ _ _).
  destruct mrse' as [mrs' e']. simpl. now rewrite (rne_equiv sx).
Qed.
Lemma br_equiv s m e : SpecFloat.binary_round 53 1024 s m e = binary_round 53 1024 mode_NE s m e.
Proof.
  unfold SpecFloat.binary_round, binary_round, shl_align_fexp. set (mez := SpecFloat.shl_align _ _ _). destruct mez as [mz ez].
  apply bra_equiv.
Qed.
Definition bnorm (m e : Z) (s : bool) : bin := binary_normalize 53 1024 Hprec Hmax mode_NE m e s.
Lemma bn_equiv m e s : SpecFloat.binary_normalize 53 1024 m e s = B2SF (bnorm m e s).
Proof. destruct m as [|p|p]; [reflexivity| |]; simpl; rewrite B2SF_SF2B; apply br_equiv. Qed.

Definition badd (x y : bin) : bin := Bplus mode_NE x y.
Lemma add_equiv (x y : bin) : SFadd 53 1024 (B2SF x) (B2SF y) = B2SF (badd x y).
Proof.
  destruct x as [sx|sx| |sx mx ex Bx], y as [sy|sy| |sy my ey By]; try (now (trivial || simpl; destruct (Bool.eqb _ _))).
  apply bn_equiv.
Qed.

(* every double in the sense of SpecFloat that is a valid pattern comes from a bin *)
Lemma dofZ_bin z : dofZ z = B2SF (bnorm z 0 false).
Proof. apply bn_equiv. Qed.

Lemma exact_int z : (Z.abs z <= 2 ^ 53)%Z ->
  B2R (bnorm z 0 false) = IZR z /\ is_finite (bnorm z 0 false) = true /\
  Bsign (bnorm z 0 false) = match Rcompare (IZR z) 0 with Eq => false | Lt => true | Gt => false end.
Proof.
  intros Hz. pose proof (binary_normalize_correct 53 1024 Hprec Hmax mode_NE z 0 false) as H. cbv zeta in H.
  assert (EF : F2R (Float radix2 z 0) = IZR z) by (unfold F2R; simpl; lra). rewrite EF in H.
  assert (ER : round radix2 (SpecFloat.fexp 53 1024) (round_mode mode_NE) (IZR z) = IZR z).
  { apply round_generic; [apply valid_rnd_round_mode|].
    assert (Hf : generic_format radix2 (FLT_exp (-1074) 53) (IZR z)).
    { destruct (Z.eq_dec (Z.abs z) (2 ^ 53)) as [E|N].
      - destruct (Z.abs_eq_or_opp z) as [E'|E']; rewrite E' in E.
        + rewrite E. change (IZR (2 ^ 53)) with (bpow radix2 53). apply generic_format_bpow. vm_compute. discriminate.
        + replace z with (- 2 ^ 53)%Z by lia. rewrite opp_IZR. apply generic_format_opp.
          change (IZR (2 ^ 53)) with (bpow radix2 53). apply generic_format_bpow. vm_compute. discriminate.
      - apply generic_format_FLT. exists (Float radix2 z 0); [now rewrite EF| |]; simpl; lia. }
    exact Hf. }
  rewrite ER in H. rewrite Rlt_bool_true in H; [exact H|].
  apply Rle_lt_trans with (bpow radix2 53).
  - rewrite <- abs_IZR. change (bpow radix2 53) with (IZR (2 ^ 53)). now apply IZR_le.
  - apply bpow_lt. lia.
Qed.

Lemma dofZ_add a b : (0 <= a)%Z -> (0 <= b)%Z -> (a + b <= 2 ^ 53)%Z ->
  SFadd 53 1024 (dofZ a) (dofZ b) = dofZ (a + b).
Proof.
  intros Ha Hb Hab. rewrite !dofZ_bin, add_equiv. f_equal.
  destruct (exact_int a) as (Ra & Fa & Sa); [lia|]. destruct (exact_int b) as (Rb & Fb & Sb); [lia|].
  destruct (exact_int (a + b)) as (Rc & Fc & Sc); [lia|].
  pose proof (Bplus_correct 53 1024 Hprec Hmax mode_NE _ _ Fa Fb) as H. fold (badd (bnorm a 0 false) (bnorm b 0 false)) in H.
  rewrite Ra, Rb, <- plus_IZR, <- Rc in H.
  assert (ER : round radix2 (SpecFloat.fexp 53 1024) (round_mode mode_NE) (B2R (bnorm (a + b) 0 false)) = B2R (bnorm (a + b) 0 false)).
  { apply round_generic; [apply valid_rnd_round_mode|]. apply generic_format_B2R. }
  rewrite ER in H. rewrite Rlt_bool_true in H.
  - destruct H as (H1 & H2 & H3). apply B2R_Bsign_inj; auto.
    rewrite H3, Rc, Sa, Sb, Sc.
    destruct (Rcompare_spec (IZR (a + b)) 0) as [E|E|E]; auto.
    assert (Ea : a = 0%Z) by (apply eq_IZR in E; lia). assert (Eb : b = 0%Z) by (apply eq_IZR in E; lia). rewrite Ea, Eb.
    rewrite Rcompare_Eq by reflexivity. reflexivity.
  - rewrite Rc. apply Rle_lt_trans with (bpow radix2 53).
    + rewrite <- abs_IZR. change (bpow radix2 53) with (IZR (2 ^ 53)). apply IZR_le. lia.
    + apply bpow_lt. lia.
Qed.

(* x - x for a finite x *)
Definition sf_finite (x : spec_float) : bool := match x with S754_finite _ _ _ | S754_zero _ => true | _ => false end.
Lemma sub_self x : sf_finite x = true -> SFsub 53 1024 x x = S754_zero false.
Proof.
  destruct x as [s|s| |s m e]; try discriminate; intros _.
  - destruct s; reflexivity.
  - unfold SFsub. rewrite Z.min_id. set (p := SpecFloat.shl_align m e e). rewrite Z.sub_diag. reflexivity.
Qed.
