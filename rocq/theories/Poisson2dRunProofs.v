(* Poisson2dRunProofs.v - the operator of poisson2d is linear, hence a matrix. *)
From Coq Require Import ZArith List Lia Bool Arith.
From Verif Require Import Base Loops Num JacobiSpec JacobiModel JacobiExactProofs JacobiQuadProofs JacobiOrthProofs BlitzModel UniqueProofs MeshSpec TriModel TriSpec TriGeoSpec TriSetup TriProps TriWitness TriOpProofs TriBasisProofs JacobiProofs Maps2DModel 
  RKModel Line1DModel Line1DProofs SwModel SwSpec SwProofs SwSchemeProofs SwProps Poisson2dModel Poisson2dSpec Poisson2dProofs.
From Coq Require Import Reals Lra.
Import ListNotations.
Local Open Scope R_scope.
Local Notation tab := Line1DProofs.tab.
Local Notation inb := SwProofs.inb.

Lemma tab_at n (f : nat -> R) g : (g < n)%nat -> nth g (tab n f) 0 = f g.
Proof. intro H. erewrite nth_error_nth; [|rewrite tab_nth_error; destruct (Nat.ltb_spec g n); [reflexivity|lia]]. reflexivity. Qed.

(* --- a linear map on vectors of length n is a matrix --- *)
Section Matrix.
Variables (n : nat) (f : list R -> list R -> outcome (list R)).
Hypothesis Htot : forall x o, length x = n -> length o = n -> exists r, f x o = Ok r /\ length r = n.
Hypothesis Hlin : forall al x y z ox oy oz rx ry rz, length x = n -> length y = n -> length z = n -> length ox = n -> length oy = n -> length oz = n ->
  (forall g, (g < n)%nat -> nth g z 0 = nth g x 0 + al * nth g y 0) -> f x ox = Ok rx -> f y oy = Ok ry -> f z oz = Ok rz ->
  forall g, (g < n)%nat -> nth g rz 0 = nth g rx 0 + al * nth g ry 0.
Definition e_of (j : nat) : list R := tab n (fun g => if (g =? j)%nat then 1 else 0).
Definition zero_of : list R := tab n (fun _ => 0).
Definition entries (g j : nat) : R := match f (e_of j) zero_of with Ok res => nth g res 0 | _ => 0 end.
Lemma entries_to m : (m <= n)%nat -> forall x out res, length x = n -> length out = n -> (forall g, (m <= g)%nat -> (g < n)%nat -> nth g x 0 = 0) -> f x out = Ok res ->
  forall g, (g < n)%nat -> nth g res 0 = sumn m (fun j => entries g j * nth j x 0).
Proof.
  induction m as [|m IH]; intros Hm x out res Lx Lo Z E g Hg.
  - rewrite sumn_0. pose proof (Hlin 1 x x x out out out res res res Lx Lx Lx Lo Lo Lo ltac:(intros j Hj; rewrite (Z j ltac:(lia) Hj); ring) E E E g Hg). lra.
  - rewrite sumn_S. set (x' := tab n (fun j => if (j =? m)%nat then 0 else nth j x 0)).
    assert (Lx' : length x' = n) by apply tab_len. assert (Lz : length zero_of = n) by apply tab_len. assert (Lu : length (e_of m) = n) by apply tab_len.
    destruct (Htot x' out Lx' Lo) as (res' & E' & _). destruct (Htot (e_of m) zero_of Lu Lz) as (ru & Eu & _).
    rewrite (Hlin (nth m x 0) x' (e_of m) x out zero_of out res' ru res Lx' Lu Lx Lo Lz Lo) with (g := g); auto.
    + rewrite (IH ltac:(lia) x' out res' Lx' Lo) with (g := g); auto.
      * unfold entries at 3. rewrite Eu. f_equal; [|ring]. apply sumn_ext. intros j Hj. unfold x'. rewrite tab_at by lia. destruct (Nat.eqb_spec j m); [lia|reflexivity].
      * intros j H1 H2. unfold x'. rewrite tab_at by lia. destruct (Nat.eqb_spec j m); [reflexivity|]. apply Z; lia.
    + intros j Hj. unfold x', e_of. rewrite !tab_at by exact Hj. destruct (Nat.eqb_spec j m) as [-> |]; ring.
Qed.
Lemma entries_ok x out res : length x = n -> length out = n -> f x out = Ok res -> forall g, (g < n)%nat -> nth g res 0 = sumn n (fun j => entries g j * nth j x 0).
Proof. intros Lx Lo E g Hg. apply (entries_to n ltac:(lia) x out res Lx Lo); auto. intros; lia. Qed.
End Matrix.

(* --- the equations of the operator are linear --- *)
Section Lin.
Variables (G : R -> R) (lowest : R) (d : dg2d (T := R)) (J : mat R) (NF Nfp Np K : nat) (W Nn : list nat) (al : R).
Local Notation E := (exact G).
Local Notation m := (NF * Nfp)%nat.
Hypothesis HNp : (0 < Np)%nat.
Hypothesis HM : maps_ok d Np K (m * K).
Definition comb (m1 m2 m3 : mat R) : Prop := forall i k, (i < Np)%nat -> (k < K)%nat -> ment m3 i k = ment m1 i k + al * ment m2 i k.
Lemma comb_vol m1 m2 m3 v : comb m1 m2 m3 -> (v < Np * K)%nat -> volv Np m3 v = volv Np m1 v + al * volv Np m2 v.
Proof. intros H Hv. apply H; [apply Nat.mod_upper_bound; lia|apply Nat.div_lt_upper_bound; lia]. Qed.
Lemma comb_sum c m1 m2 m3 k : comb m1 m2 m3 -> (k < K)%nat -> sumn Np (fun j => c j * ment m3 j k) = sumn Np (fun j => c j * ment m1 j k) + al * sumn Np (fun j => c j * ment m2 j k).
Proof. intros H Hk. rewrite <- sumn_scal, <- sumn_plus. apply sumn_ext. intros j Hj. rewrite (H j k Hj Hk). ring. Qed.
Lemma comb_dx m1 m2 m3 : comb m1 m2 m3 -> comb (dx E d Np K m1) (dx E d Np K m2) (dx E d Np K m3).
Proof. intros H i k Hi Hk. rewrite !dx_ok, !(comb_sum _ m1 m2 m3 k H Hk). ring. Qed.
Lemma comb_dy m1 m2 m3 : comb m1 m2 m3 -> comb (dy E d Np K m1) (dy E d Np K m2) (dy E d Np K m3).
Proof. intros H i k Hi Hk. rewrite !dy_ok, !(comb_sum _ m1 m2 m3 k H Hk). ring. Qed.
Lemma vM_lt e : (e < m * K)%nat -> (vM d e < Np * K)%nat.
Proof. intro He. destruct HM as (L & _ & B & _). apply B. apply nth_In. lia. Qed.
Lemma vP_lt e : (e < m * K)%nat -> (vP d e < Np * K)%nat.
Proof. intro He. destruct HM as (_ & L & _ & B). apply B. apply nth_In. lia. Qed.
Local Notation fl u := (u, dx E d Np K u, dy E d Np K u).
Lemma comb_own u1 u2 u3 e c : comb u1 u2 u3 -> (e < m * K)%nat -> part c (cell_at Np (fl u3) (vM d e)) = part c (cell_at Np (fl u1) (vM d e)) + al * part c (cell_at Np (fl u2) (vM d e)).
Proof.
  intros H He. pose proof (vM_lt e He) as Hv. destruct c as [|[|c]].
  - exact (comb_vol u1 u2 u3 _ H Hv).
  - exact (comb_vol _ _ _ _ (comb_dx _ _ _ H) Hv).
  - exact (comb_vol _ _ _ _ (comb_dy _ _ _ H) Hv).
Qed.
Lemma comb_nbr u1 u2 u3 e c : comb u1 u2 u3 -> (e < m * K)%nat -> part c (cell_at Np (fl u3) (vP d e)) = part c (cell_at Np (fl u1) (vP d e)) + al * part c (cell_at Np (fl u2) (vP d e)).
Proof.
  intros H He. pose proof (vP_lt e He) as Hv. destruct c as [|[|c]].
  - exact (comb_vol u1 u2 u3 _ H Hv).
  - exact (comb_vol _ _ _ _ (comb_dx _ _ _ H) Hv).
  - exact (comb_vol _ _ _ _ (comb_dy _ _ _ H) Hv).
Qed.
Lemma mirror_lin n (q1 q2 q3 : cell) c : (forall c, part c q3 = part c q1 + al * part c q2) -> part c (mirror n q3) = part c (mirror n q1) + al * part c (mirror n q2).
Proof.
  intro H. pose proof (H 0%nat) as H0. pose proof (H 1%nat) as H1. pose proof (H 2%nat) as H2. destruct q1 as ((a1 & b1) & c1), q2 as ((a2 & b2) & c2), q3 as ((a3 & b3) & c3). cbn [part fst snd] in *. subst.
  destruct c as [|[|c]]; cbn [mirror part fst snd]; ring.
Qed.
Lemma comb_beyond u1 u2 u3 e c : comb u1 u2 u3 -> (e < m * K)%nat ->
  part c (beyond_cell d m Np W Nn (fl u3) e) = part c (beyond_cell d m Np W Nn (fl u1) e) + al * part c (beyond_cell d m Np W Nn (fl u2) e).
Proof.
  intros H He. pose proof (fun c => comb_own u1 u2 u3 e c H He) as HO. pose proof (fun c => comb_nbr u1 u2 u3 e c H He) as HP.
  unfold beyond_cell. cbv zeta. destruct c as [|[|c]]; cbn [part fst snd].
  - destruct (inb e W); [|apply (HP 0%nat)]. pose proof (HO 0%nat) as H0. cbn [part fst snd] in H0. rewrite H0. ring.
  - destruct (inb e Nn); [apply (mirror_lin _ _ _ _ 1 HO)|apply (HP 1%nat)].
  - destruct (inb e Nn); [apply (mirror_lin _ _ _ _ 2 HO)|apply (HP 2%nat)].
Qed.
Lemma eqs_lin u1 qx1 qy1 z1 u2 qx2 qy2 z2 u3 qx3 qy3 z3 : op_eqs G lowest d J NF Nfp Np K W Nn u1 qx1 qy1 z1 -> op_eqs G lowest d J NF Nfp Np K W Nn u2 qx2 qy2 z2 ->
  op_eqs G lowest d J NF Nfp Np K W Nn u3 qx3 qy3 z3 -> comb u1 u2 u3 -> comb z1 z2 z3.
Proof.
  unfold op_eqs. cbv zeta. intros E1 E2 E3 H.
  assert (HD : forall e, (e < m * K)%nat -> part 0 (cell_at Np (fl u3) (vM d e)) - part 0 (beyond_cell d m Np W Nn (fl u3) e) =
    (part 0 (cell_at Np (fl u1) (vM d e)) - part 0 (beyond_cell d m Np W Nn (fl u1) e)) + al * (part 0 (cell_at Np (fl u2) (vM d e)) - part 0 (beyond_cell d m Np W Nn (fl u2) e))).
  { intros e He. rewrite (comb_own u1 u2 u3 e 0 H He), (comb_beyond u1 u2 u3 e 0 H He). ring. }
  assert (Hlt : forall j k, (j < m)%nat -> (k < K)%nat -> (j + k * m < m * K)%nat) by (intros; nia).
  assert (QX : comb qx1 qx2 qx3).
  { intros i k Hi Hk. destruct (E1 i k Hi Hk) as (-> & _). destruct (E2 i k Hi Hk) as (-> & _). destruct (E3 i k Hi Hk) as (-> & _). rewrite (comb_dx _ _ _ H i k Hi Hk).
    rewrite (sumn_ext m _ (fun j => ment (d_Lift d) i j * (ment (d_Fscale d) j k * (ment (d_nx d) j k * (part 0 (cell_at Np (fl u1) (vM d (j + k * m))) - part 0 (beyond_cell d m Np W Nn (fl u1) (j + k * m)%nat)) / 2)) +
      al * (ment (d_Lift d) i j * (ment (d_Fscale d) j k * (ment (d_nx d) j k * (part 0 (cell_at Np (fl u2) (vM d (j + k * m))) - part 0 (beyond_cell d m Np W Nn (fl u2) (j + k * m)%nat)) / 2))))).
    - rewrite sumn_plus, sumn_scal. ring.
    - intros j Hj. rewrite (HD (j + k * m)%nat (Hlt j k Hj Hk)). field. }
  assert (QY : comb qy1 qy2 qy3).
  { intros i k Hi Hk. destruct (E1 i k Hi Hk) as (_ & -> & _). destruct (E2 i k Hi Hk) as (_ & -> & _). destruct (E3 i k Hi Hk) as (_ & -> & _). rewrite (comb_dy _ _ _ H i k Hi Hk).
    rewrite (sumn_ext m _ (fun j => ment (d_Lift d) i j * (ment (d_Fscale d) j k * (ment (d_ny d) j k * (part 0 (cell_at Np (fl u1) (vM d (j + k * m))) - part 0 (beyond_cell d m Np W Nn (fl u1) (j + k * m)%nat)) / 2)) +
      al * (ment (d_Lift d) i j * (ment (d_Fscale d) j k * (ment (d_ny d) j k * (part 0 (cell_at Np (fl u2) (vM d (j + k * m))) - part 0 (beyond_cell d m Np W Nn (fl u2) (j + k * m)%nat)) / 2))))).
    - rewrite sumn_plus, sumn_scal. ring.
    - intros j Hj. rewrite (HD (j + k * m)%nat (Hlt j k Hj Hk)). field. }
  intros i k Hi Hk. destruct (E1 i k Hi Hk) as (_ & _ & ->). destruct (E2 i k Hi Hk) as (_ & _ & ->). destruct (E3 i k Hi Hk) as (_ & _ & ->). rewrite (comb_dx _ _ _ QX i k Hi Hk), (comb_dy _ _ _ QY i k Hi Hk).
  match goal with |- _ - sumn m ?t3 = _ - sumn m ?t1 + al * (_ - sumn m ?t2) => assert (ES : sumn m t3 = sumn m t1 + al * sumn m t2) end; [|rewrite ES; ring].
  rewrite <- sumn_scal, <- sumn_plus. apply sumn_ext. intros j Hj. cbv beta. pose proof (Hlt j k Hj Hk) as He. set (e := (j + k * m)%nat) in *.
  rewrite (HD e He), (comb_vol _ _ _ _ QX (vM_lt e He)), (comb_vol _ _ _ _ QY (vM_lt e He)), !(comb_own u1 u2 u3 e _ H He), !(comb_beyond u1 u2 u3 e _ H He). field.
Qed.
End Lin.
