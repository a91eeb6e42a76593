(* InsProofs.v - the entries of the right-hand side of src/ins2d/main.cpp, and its time steps. *)
From Coq Require Import ZArith List Lia Bool Arith.
From Verif Require Import Base Loops Num BlitzModel Maps2DModel JacobiSpec JacobiProofs JacobiQuadProofs JacobiExactProofs Nodes1DModel Nodes1DExactProofs RKModel Line1DModel Line1DProofs TriSpec TriGeoSpec SwModel SwSpec SwStepModel SwProofs InsModel InsSpec.
From Coq Require Import Reals Lra.
Import ListNotations.
Local Open Scope R_scope.

Section Entries.
Variables (G : R -> R) (junk : nat -> nat -> R) (junkv : nat -> R) (lowest : R).
Local Notation E := (exact G).

Definition deriv_entry (d : dg2d (T := R)) (Np : nat) (mr ms : mat R) (f : nat -> R) (i k : nat) : R :=
  ment mr i k * sumn Np (fun j => ment (d_Dr d) i j * f j) + ment ms i k * sumn Np (fun j => ment (d_Ds d) i j * f j).
Definition energy_at (q : field) (k j : nat) : R := (ment (fieldc 1 q) j k * ment (fieldc 1 q) j k + ment (fieldc 2 q) j k * ment (fieldc 2 q) j k) / 2.
Definition ins_volume (vort : nat -> nat -> R) (d : dg2d) (Np : nat) (g : R) (q : field) (c i k : nat) : R :=
  let '(rho, u, v) := at_node q i k in
  match c with
  | O => - u * deriv_entry d Np (d_rx d) (d_sx d) (fun j => ment (fieldc 0 q) j k) i k - v * deriv_entry d Np (d_ry d) (d_sy d) (fun j => ment (fieldc 0 q) j k) i k
  | S O => - deriv_entry d Np (d_rx d) (d_sx d) (energy_at q k) i k - v * vort i k
  | _ => - deriv_entry d Np (d_ry d) (d_sy d) (energy_at q k) i k + u * vort i k - g * rho
  end.
Definition ins_jump (d : dg2d (T := R)) (m : nat) (own other : nat -> cell) (lam : nat -> R) (c i : nat) : R :=
  ins_through c (normal_at d m i) (own i) - ins_rusanov c (normal_at d m i) (lam i) (own i) (other i).
Definition ins_surface (d : dg2d) (m : nat) (own other : nat -> cell) (lam : nat -> R) (c i k : nat) : R :=
  sumn m (fun j => ment (d_Lift d) i j * (ment (d_Fscale d) j k * ins_jump d m own other lam c (j + k * m))).

Lemma deriv_ok d Np K mr ms q f i k : (forall j, (j < Np)%nat -> ment q j k = f j) -> ment (ins_deriv E d Np K mr ms q) i k = deriv_entry d Np mr ms f i k.
Proof.
  intro H. unfold ins_deriv, deriv_entry, scaled_product, mzip. cbn [ment]. rewrite !fsum_exact. cbn [fadd fmul exact].
  rewrite (sumn_ext Np (fun x => ment (d_Dr d) i x * ment q x k) (fun x => ment (d_Dr d) i x * f x)), (sumn_ext Np (fun x => ment (d_Ds d) i x * ment q x k) (fun x => ment (d_Ds d) i x * f x)) by (intros; rewrite H; auto). reflexivity.
Qed.
Lemma lifted_ok d m R D i k : ment (ins_lifted E d m R D) i k = ment R i k + sumn m (fun j => ment (d_Lift d) i j * (ment (d_Fscale d) j k * ment D j k)).
Proof. unfold ins_lifted, add_product, mzip. cbn [ment]. rewrite fsum_exact. cbn [fadd fmul exact]. reflexivity. Qed.

Lemma ins_ok vort d NF Nfp Np K g q mapW : dg_conform d NF Nfp Np K = true -> state_conform q Np K = true -> (0 < Np)%nat -> (0 < NF)%nat -> (0 < Nfp)%nat ->
  maps_ok d Np K (NF * Nfp * K) -> hfind (d_bc d) 3 = Some mapW ->
  exists z, ins_rhs E junk junkv lowest vort d NF Nfp Np K g q = Ok z /\ state_conform z Np K = true /\
  let own i := cell_at Np q (vM d i) in
  let other i := cell_at Np q (vP d i) in
  let lam := face_max G lowest Nfp (fun i => Rmax (flow_speed (own i)) (flow_speed (other i))) in
  forall c i k, (c < 3)%nat -> (i < Np)%nat -> (k < K)%nat ->
    ment (fieldc c z) i k = ins_volume vort d Np g q c i k + ins_surface d (NF * Nfp) own other lam c i k.
Proof.
  intros HC HQ HNp HNF HNfp (LM & LP & BM & BP) HW. destruct q as [[rho u] v]. unfold ins_rhs. rewrite HC, HQ, HW. cbn [require andb].
  set (nf := (NF * Nfp * K)%nat) in *.
  assert (C0 : forall m, conform m (NF * Nfp) K = true -> fullToVector m (repeat (fofn E 0) nf) false = Ok (tab nf (fun i => ment m (i mod (NF * Nfp)) (i / (NF * Nfp))))).
  { intros m Hm. apply conform_ok in Hm as (M1 & M2). apply full_tab; auto; [nia|apply repeat_length]. }
  pose proof HC as HC'. unfold dg_conform in HC'. rewrite !andb_true_iff in HC'. destruct HC' as (((((((((_ & _) & _) & _) & Cx) & Cy) & _) & _) & _) & _).
  rewrite (C0 _ Cx), (C0 _ Cy). cbn [bind]. unfold state_conform in HQ. rewrite !andb_true_iff in HQ. destruct HQ as ((Q1 & Q2) & Q3).
  rewrite (traces_ok junkv d Np K nf rho), (traces_ok junkv d Np K nf u), (traces_ok junkv d Np K nf v) by assumption. cbn [bind].
  rewrite !tab_zipw.
  match goal with |- context [vectorToFull (tab nf ?F) _ _] => set (spd := F) end.
  destruct (lambda_ok G junk lowest Nfp (NF * K) spd HNfp) as (M & EM & EL). replace (Nfp * (NF * K))%nat with nf in EM, EL by (unfold nf; nia). rewrite EM. cbn [bind]. rewrite EL. cbn [bind].
  rewrite !jumps_ok.
  match goal with |- context [vectorToFull (tab nf ?F) _ _] => destruct (unfull_tab F (mkmat (NF * Nfp) K junk) (NF * Nfp) K eq_refl eq_refl) as (D1 & ED1 & _ & _ & HD1); fold nf in ED1; rewrite ED1; cbn [bind] end.
  match goal with |- context [vectorToFull (tab nf ?F) _ _] => destruct (unfull_tab F (mkmat (NF * Nfp) K junk) (NF * Nfp) K eq_refl eq_refl) as (D2 & ED2 & _ & _ & HD2); fold nf in ED2; rewrite ED2; cbn [bind] end.
  match goal with |- context [vectorToFull (tab nf ?F) _ _] => destruct (unfull_tab F (mkmat (NF * Nfp) K junk) (NF * Nfp) K eq_refl eq_refl) as (D3 & ED3 & _ & _ & HD3); fold nf in ED3; rewrite ED3; cbn [bind] end.
  eexists. split; [reflexivity|]. split.
  { unfold ins_lifted, add_product, mzip, state_conform, conform. cbn [mrows mcols]. rewrite !Nat.eqb_refl. reflexivity. }
  cbv zeta. 
  assert (Hlam : forall i, face_max G lowest Nfp spd i = face_max G lowest Nfp (fun i => Rmax (flow_speed (cell_at Np (rho, u, v) (vM d i))) (flow_speed (cell_at Np (rho, u, v) (vP d i)))) i).
  { intro i. unfold face_max. apply maxto_ext. intros n _. unfold spd. rewrite fmax_exact. reflexivity. }
  intros c i k Hc Hi Hk. destruct c as [|[|[|]]]; [| | |lia]; cbn [fieldc fst snd]; rewrite lifted_ok; unfold ins_volume, at_node; cbn [fieldc fst snd mzip ment].
  - f_equal; [|unfold ins_surface; apply sumn_ext; intros j Hj; rewrite HD1 by assumption; rewrite Hlam; f_equal; f_equal; unfold ins_jump, ins_rusanov, ins_through, carried, cell_at, volv, at_node, normal_at; cbn [fieldc fst snd part exact fmul fsub]; field].
    rewrite !(deriv_ok d Np K _ _ rho (fun j => ment rho j k) i k) by reflexivity. reflexivity.
  - f_equal; [|unfold ins_surface; apply sumn_ext; intros j Hj; rewrite HD2 by assumption; rewrite Hlam; f_equal; f_equal; unfold ins_jump, ins_rusanov, ins_through, carried, cell_at, volv, at_node, normal_at; cbn [fieldc fst snd part exact fmul fsub]; field].
    rewrite (deriv_ok d Np K _ _ _ (energy_at (rho, u, v) k) i k); [reflexivity|]. intros j Hj. unfold ins_energy, energy_at, mzip, half. cbn [ment fieldc fst snd]. rewrite fhalf_exact. cbn [exact fmul fadd]. field.
  - f_equal; [|unfold ins_surface; apply sumn_ext; intros j Hj; rewrite HD3 by assumption; rewrite Hlam; f_equal; f_equal; unfold ins_jump, ins_rusanov, ins_through, carried, cell_at, volv, at_node, normal_at; cbn [fieldc fst snd part exact fmul fsub]; field].
    rewrite (deriv_ok d Np K _ _ _ (energy_at (rho, u, v) k) i k); [cbn [exact fadd fmul fopp]; ring|]. intros j Hj. unfold ins_energy, energy_at, mzip, half. cbn [ment fieldc fst snd]. rewrite fhalf_exact. cbn [exact fmul fadd]. field.
Qed.
End Entries.
