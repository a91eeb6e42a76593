(* HeatProofs.v - backward Euler with symmetric matrices, and what the scripts compute. *)
From Coq Require Import ZArith List Lia Bool Arith.
From Verif Require Import Base Loops Num TripletModel CscModel CscSpec JacobiSpec JacobiQuadProofs TriLiftProofs DenseSpec SwModel CurvedSwModel CurvedSwProofs PoissonSpec PoissonTripletProofs HeatModel HeatSpec LinSolve.
From Coq Require Import Reals Lra.
Import ListNotations.
Local Open Scope R_scope.

(* ---------- bilinear forms ---------- *)
Definition form (n : nat) (a : nat -> nat -> R) (v u : nat -> R) : R := sumn n (fun i => v i * times n a u i).
Lemma quadratic_form n c v u : quadratic n c v u = form n (entry_of c) v u.
Proof. unfold quadratic, form, times. apply sumn_ext. intros i Hi. rewrite <- sumn_scal. apply sumn_ext. intros; ring. Qed.
Lemma times_plus n a x y i : times n a (fun j => x j + y j) i = times n a x i + times n a y i.
Proof. unfold times. rewrite <- sumn_plus. apply sumn_ext. intros; ring. Qed.
Lemma times_scal n a c x i : times n a (fun j => c * x j) i = c * times n a x i.
Proof. unfold times. rewrite <- sumn_scal. apply sumn_ext. intros; ring. Qed.
Lemma form_minus_r n a v u w : form n a v (fun j => u j - w j) = form n a v u - form n a v w.
Proof. unfold form. rewrite (sumn_ext n _ (fun i => v i * times n a u i + -1 * (v i * times n a w i))) by (intros; rewrite times_minus; ring). rewrite sumn_plus, sumn_scal. ring. Qed.
Lemma form_minus_l n a v u w : form n a (fun j => v j - w j) u = form n a v u - form n a w u.
Proof. unfold form. rewrite (sumn_ext n _ (fun i => v i * times n a u i + -1 * (w i * times n a u i))) by (intros; ring). rewrite sumn_plus, sumn_scal. ring. Qed.
Lemma form_scal_r n a v c u : form n a v (fun j => c * u j) = c * form n a v u.
Proof. unfold form. rewrite <- sumn_scal. apply sumn_ext. intros; rewrite times_scal; ring. Qed.
Lemma form_scal_l n a v c u : form n a (fun j => c * v j) u = c * form n a v u.
Proof. unfold form. rewrite <- sumn_scal. apply sumn_ext. intros; ring. Qed.
Lemma form_sym n a v u : (forall i j, (i < n)%nat -> (j < n)%nat -> a i j = a j i) -> form n a v u = form n a u v.
Proof.
  intro H. unfold form, times. rewrite (sumn_ext n _ (fun i => sumn n (fun j => v i * (a i j * u j)))) by (intros; now rewrite sumn_scal). rewrite sumn_swap.
  apply sumn_ext. intros i Hi. rewrite <- sumn_scal. apply sumn_ext. intros j Hj. rewrite (H i j Hi Hj). ring.
Qed.
Lemma form_ext n a v v' u u' : (forall i, (i < n)%nat -> v i = v' i) -> (forall i, (i < n)%nat -> u i = u' i) -> form n a v u = form n a v' u'.
Proof. intros H1 H2. unfold form. apply sumn_ext. intros i Hi. now rewrite (H1 i Hi), (times_ext n a u u' i H2). Qed.

Section Euler.
Variables (n : nat) (M L : nat -> nat -> R) (c : R).
Hypothesis Msym : forall i j, (i < n)%nat -> (j < n)%nat -> M i j = M j i.
Hypothesis Lsym : forall i j, (i < n)%nat -> (j < n)%nat -> L i j = L j i.
Hypothesis Mpos : forall u, (exists g, (g < n)%nat /\ u g <> 0) -> 0 < form n M u u.
Hypothesis Lpos : forall u, 0 <= form n L u u.
Hypothesis Hc : 0 < c.

Lemma zero_dec x : (forall i, (i < n)%nat -> x i = 0) \/ exists g, (g < n)%nat /\ x g <> 0.
Proof.
  clear. induction n as [|m IH]; [left; intros; lia|]. destruct IH as [H|(g & Hg & Hx)]; [|right; exists g; split; [lia|assumption]].
  destruct (Req_dec (x m) 0) as [E|E]; [left|right; exists m; split; [lia|exact E]]. intros i Hi. destruct (Nat.eq_dec i m) as [-> |]; [exact E|apply H; lia].
Qed.
Lemma form_zero a v u : (forall i, (i < n)%nat -> times n a u i = 0) -> form n a v u = 0.
Proof. intro H. unfold form. apply sumn_zero. intros i Hi. rewrite (H i Hi). ring. Qed.
Lemma Mnonneg u : 0 <= form n M u u.
Proof. destruct (zero_dec u) as [H|H]; [|apply Rlt_le, Mpos, H]. unfold form. rewrite sumn_zero; [lra|]. intros i Hi. rewrite (H i Hi). ring. Qed.
Lemma euler_nonsingular A : (forall x i, (i < n)%nat -> times n A x i = times n M x i + c * times n L x i) -> nonsingular n A.
Proof.
  intros HA x Hx. destruct (zero_dec x) as [H|H]; [exact H|exfalso].
  assert (E : form n A x x = form n M x x + c * form n L x x).
  { unfold form. rewrite (sumn_ext n _ (fun i => x i * times n M x i + c * (x i * times n L x i))) by (intros i Hi; rewrite (HA x i Hi); ring). now rewrite sumn_plus, sumn_scal. }
  rewrite (form_zero A x x Hx) in E. pose proof (Mpos x H). pose proof (Lpos x). nra.
Qed.
(* M e' + c L e' = M e *)
Lemma test v e e' : (forall i, (i < n)%nat -> times n M e' i + c * times n L e' i = times n M e i) -> form n M v e' + c * form n L v e' = form n M v e.
Proof. intro H. unfold form. rewrite <- sumn_scal, <- sumn_plus. apply sumn_ext. intros i Hi. rewrite <- (H i Hi). ring. Qed.
Lemma decay e e' : (forall i, (i < n)%nat -> times n M e' i + c * times n L e' i = times n M e i) ->
  form n M e' e' + 2 * c * form n L e' e' <= form n M e e /\ form n L e' e' <= form n L e e.
Proof.
  intro H. split.
  - pose proof (test e' e e' H) as T. pose proof (Mnonneg (fun j => e' j - e j)) as P. rewrite form_minus_r, !form_minus_l in P. rewrite (form_sym n M e e' Msym) in P. lra.
  - pose proof (test (fun j => e' j - e j) e e' H) as T. pose proof (Mnonneg (fun j => e' j - e j)) as P. rewrite form_minus_r in P.
    rewrite (form_minus_l n L) in T. pose proof (Lpos (fun j => e' j - e j)) as Q. rewrite form_minus_r, !form_minus_l in Q. rewrite (form_sym n L e' e Lsym) in Q.
    assert (c * (form n L e' e' - form n L e e') <= 0) by lra. assert (form n L e' e' - form n L e e' <= 0) by nra. lra.
Qed.
Lemma decay_n (e : nat -> nat -> R) : (forall j i, (i < n)%nat -> times n M (e (S j)) i + c * times n L (e (S j)) i = times n M (e j) i) ->
  forall j, form n M (e j) (e j) + 2 * c * INR j * form n L (e j) (e j) <= form n M (e 0%nat) (e 0%nat).
Proof.
  intros H j. induction j as [|j IH]; [cbn [INR]; lra|]. destruct (decay (e j) (e (S j)) (H j)) as (D1 & D2). rewrite S_INR.
  pose proof (pos_INR j). pose proof (Lpos (e (S j))). assert (2 * c * INR j * form n L (e (S j)) (e (S j)) <= 2 * c * INR j * form n L (e j) (e j)) by (apply Rmult_le_compat_l; [nra|exact D2]). nra.
Qed.
(* Cauchy and Schwarz against a unit vector *)
Lemma point_bound w g e : (g < n)%nat -> (forall i, (i < n)%nat -> times n L w i = delta g i) -> e g * e g <= form n L w w * form n L e e.
Proof.
  intros Hg Hw. assert (E : form n L e w = e g).
  { unfold form. rewrite (sumn_pick n _ g Hg). - rewrite (Hw g Hg). unfold delta. rewrite Nat.eqb_refl. ring. - intros i Hi Hne. rewrite (Hw i Hi). unfold delta. destruct (Nat.eqb_spec g i); [congruence|ring]. }
  assert (Q : forall s, 2 * s * e g <= s * s * form n L w w + form n L e e).
  { intro s. pose proof (Lpos (fun j => s * w j - e j)) as P. rewrite form_minus_r, !form_minus_l, !form_scal_r, !form_scal_l, (form_sym n L w e Lsym), E in P. lra. }
  pose proof (Lpos w) as Pw. pose proof (Lpos e) as Pe. destruct (Req_dec (form n L w w) 0) as [Z|Z].
  - rewrite Z in *. destruct (Req_dec (e g) 0) as [-> |Hne]; [lra|]. exfalso. specialize (Q ((form n L e e + 1) / (2 * e g))).
    replace (2 * ((form n L e e + 1) / (2 * e g)) * e g) with (form n L e e + 1) in Q by (field; exact Hne). lra.
  - specialize (Q (e g / form n L w w)).
    replace (2 * (e g / form n L w w) * e g) with (2 * (e g * e g / form n L w w)) in Q by (field; exact Z).
    replace (e g / form n L w w * (e g / form n L w w) * form n L w w) with (e g * e g / form n L w w) in Q by (field; exact Z).
    assert (e g * e g / form n L w w <= form n L e e) by lra. apply (Rmult_le_compat_l (form n L w w)) in H; [|exact Pw]. replace (form n L w w * (e g * e g / form n L w w)) with (e g * e g) in H by (field; exact Z). exact H.
Qed.

(* the states *)
Variable b : nat -> R.
Definition states (q : nat -> nat -> R) : Prop := (forall i, (i < n)%nat -> q 0%nat i = 0) /\
  forall j i, (i < n)%nat -> times n M (q (S j)) i + c * times n L (q (S j)) i = times n M (q j) i + c * b i.
Definition sys (i j : nat) : R := M i j + c * L i j.
Lemma times_sys x i : times n sys x i = times n M x i + c * times n L x i.
Proof. unfold times, sys. rewrite <- sumn_scal, <- sumn_plus. apply sumn_ext. intros; ring. Qed.
Lemma sys_nonsingular : nonsingular n sys.
Proof. apply euler_nonsingular. intros. apply times_sys. Qed.
Fixpoint be (j : nat) : nat -> R :=
  match j with
  | 0%nat => fun _ => 0
  | S j' => match gauss n sys (fun i => times n M (be j') i + c * b i) with Some x => x | None => fun _ => 0 end
  end.
Lemma be_states : states be.
Proof.
  split; [reflexivity|]. intros j i Hi. rewrite <- times_sys. cbn [be]. destruct (gauss_ok n sys (fun i => times n M (be j) i + c * b i) sys_nonsingular) as (x & Ex & Hx). rewrite Ex. apply Hx, Hi.
Qed.
Lemma states_unique q q' : states q -> states q' -> forall j i, (i < n)%nat -> q j i = q' j i.
Proof.
  intros (Z1 & S1) (Z2 & S2) j. induction j as [|j IH]; intros i Hi; [now rewrite (Z1 i Hi), (Z2 i Hi)|].
  apply (solution_unique n sys); [apply sys_nonsingular| |exact Hi]. intros k Hk. rewrite !times_sys, (S1 j k Hk), (S2 j k Hk). f_equal. apply times_ext. exact IH.
Qed.
Lemma states_near w q : states q -> (forall i, (i < n)%nat -> times n L w i = b i) ->
  forall j, form n M (fun i => q j i - w i) (fun i => q j i - w i) + 2 * c * INR j * form n L (fun i => q j i - w i) (fun i => q j i - w i) <= form n M w w.
Proof.
  intros (Z & S) Hw j. assert (H0 : form n M (fun i => q 0%nat i - w i) (fun i => q 0%nat i - w i) = form n M w w).
  { rewrite (form_ext n M _ (fun i => -1 * w i) _ (fun i => -1 * w i)) by (intros i Hi; rewrite (Z i Hi); ring). rewrite form_scal_l, form_scal_r. ring. }
  rewrite <- H0. apply (decay_n (fun j i => q j i - w i)). intros k i Hi. rewrite !times_minus, (Hw i Hi). pose proof (S k i Hi). lra.
Qed.
(* the energy (1/2) q L q - b q falls below zero at the first step and never rises *)
Definition energy (q : nat -> R) : R := form n L q q - 2 * sumn n (fun i => b i * q i).
Lemma energy_step q q' : (forall i, (i < n)%nat -> times n M q' i + c * times n L q' i = times n M q i + c * b i) ->
  c * energy q' + 2 * form n M (fun i => q' i - q i) (fun i => q' i - q i) <= c * energy q.
Proof.
  intro H. set (d := fun i => q' i - q i).
  assert (T : form n M d d + c * form n L d q' = c * sumn n (fun i => b i * d i)).
  { unfold form. rewrite <- !sumn_scal, <- sumn_plus. apply sumn_ext. intros i Hi. unfold d at 2. rewrite times_minus. pose proof (H i Hi) as E. assert (E' : times n M q' i - times n M q i = c * b i - c * times n L q' i) by lra. rewrite E'. ring. }
  assert (B : sumn n (fun i => b i * d i) = sumn n (fun i => b i * q' i) - sumn n (fun i => b i * q i)).
  { unfold d. rewrite (sumn_ext n (fun i => b i * (q' i - q i)) (fun i => b i * q' i + -1 * (b i * q i))) by (intros; ring). rewrite sumn_plus, sumn_scal. ring. }
  assert (Q : form n L q' q' - form n L q q <= 2 * form n L d q').
  { pose proof (Lpos d) as P. unfold d in P at 1 2. unfold d at 1. rewrite form_minus_r, !form_minus_l in P. rewrite form_minus_l. rewrite (form_sym n L q' q Lsym) in P. lra. }
  unfold energy. fold d. rewrite B in T. nra.
Qed.
Lemma states_move q : states q -> (exists g, (g < n)%nat /\ b g <> 0) -> forall j, exists g, (g < n)%nat /\ q (S j) g <> 0.
Proof.
  intros (Z & S) (g & Hg & Hb) j.
  assert (E0 : energy (q 0%nat) = 0).
  { unfold energy, form. rewrite (sumn_zero n (fun i => q 0%nat i * _)) by (intros i Hi; rewrite (Z i Hi); ring). rewrite sumn_zero by (intros i Hi; rewrite (Z i Hi); ring). ring. }
  assert (E1 : energy (q 1%nat) < 0).
  { pose proof (energy_step (q 0%nat) (q 1%nat) (S 0%nat)) as H. rewrite E0 in H.
    assert (0 < form n M (fun i => q 1%nat i - q 0%nat i) (fun i => q 1%nat i - q 0%nat i)).
    { apply Mpos. destruct (zero_dec (fun i => q 1%nat i - q 0%nat i)) as [Y|Y]; [exfalso|exact Y]. apply Hb. pose proof (S 0%nat g Hg) as E.
      rewrite (times_ext n M (q 1%nat) (q 0%nat)) in E by (intros i Hi; specialize (Y i Hi); cbn beta in Y; lra).
      assert (EL : times n L (q 1%nat) g = 0) by (unfold times; apply sumn_zero; intros i Hi; specialize (Y i Hi); cbn beta in Y; rewrite (Z i Hi) in Y; replace (q 1%nat i) with 0 by lra; ring).
      rewrite EL in E. assert (c * b g = 0) by lra. apply Rmult_integral in H0. destruct H0; [lra|assumption]. }
    nra. }
  assert (Ej : energy (q (Datatypes.S j)) < 0).
  { induction j as [|j IH]; [exact E1|]. pose proof (energy_step _ _ (S (Datatypes.S j))) as H. pose proof (Mnonneg (fun i => q (Datatypes.S (Datatypes.S j)) i - q (Datatypes.S j) i)). nra. }
  destruct (zero_dec (q (Datatypes.S j))) as [Y|Y]; [exfalso|exact Y]. unfold energy, form in Ej.
  rewrite (sumn_zero n (fun i => q _ i * _)) in Ej by (intros i Hi; rewrite (Y i Hi); ring). rewrite sumn_zero in Ej by (intros i Hi; rewrite (Y i Hi); ring). lra.
Qed.
End Euler.

(* ---------- the pieces of the scripts ---------- *)
Section Pieces.
Variable G : R -> R.
Local Notation E := (exact G).
Lemma times_bl n ts x i : Forall (inD n) ts -> (i < n)%nat -> times n (matrix ts) x i = bl ts (delta i) x.
Proof.
  intros H Hi. rewrite <- (bl_value n ts _ _ H). rewrite (sumn_pick n _ i Hi).
  - unfold times, matrix. apply sumn_ext. intros j Hj. unfold delta. rewrite Nat.eqb_refl. ring.
  - intros k Hk Hne. apply sumn_zero. intros j Hj. unfold delta. destruct (Nat.eqb_spec i k); [congruence|ring].
Qed.
Lemma csc_matrix_ok n (ts : list (nat * nat * R)) : Forall (inD n) ts -> csc_matrix n ts = Ok ts.
Proof.
  intro H. unfold csc_matrix. rewrite (proj2 (forallb_forall _ _)); [reflexivity|]. intros e He. rewrite Forall_forall in H. destruct (H e He) as (A & B).
  apply andb_true_iff. split; apply Nat.ltb_lt; assumption.
Qed.
Lemma sp_dot_ok n ts (x : list R) : Forall (inD n) ts -> length x = n ->
  exists y, sp_dot E n ts x = Ok y /\ length y = n /\ forall i, (i < n)%nat -> nth i y 0 = times n (matrix ts) (fun j => nth j x 0) i.
Proof.
  intros H Hx. unfold sp_dot. rewrite Hx, Nat.eqb_refl. eexists. split; [reflexivity|]. split; [now rewrite map_length, seq_length|]. intros i Hi.
  rewrite nth_map_seq by exact Hi. rewrite (times_bl n ts _ i H Hi).
  assert (HF : forall l a, fold_left (fun y e => if (row_of e =? i)%nat then fadd E y (fmul E (val_of e) (nth (col_of e) x (fofn E 0))) else y) l a = a + bl l (delta i) (fun j => nth j x 0)).
  { induction l as [|[[r k] v] l IH]; intro a; cbn [fold_left bl]; [ring|]. rewrite IH. cbn [row_of col_of val_of fst snd]. unfold delta at 2. rewrite (Nat.eqb_sym i r). destruct (r =? i)%nat; cbn [exact fadd fmul fofn]; [change (fofn E 0) with 0; ring|ring]. }
  rewrite HF. change (fofn E 0) with 0. ring.
Qed.
Lemma sp_map_in n (f : R -> R) ts : Forall (inD n) ts -> Forall (inD n) (sp_map f ts).
Proof. intro H. unfold sp_map. rewrite Forall_map. exact H. Qed.
Lemma bl_map (f : R -> R) c ts v u : (forall x, f x = c * x) -> bl (sp_map f ts) v u = c * bl ts v u.
Proof. intro H. induction ts as [|[[i j] x] ts IH]; cbn [sp_map map bl row_of col_of val_of fst snd]; [ring|]. unfold sp_map in IH. rewrite IH, H. ring. Qed.
Lemma bordering_bl dof v u : bl (bordering E dof) v u = v dof * sumn dof u + sumn dof v * u dof.
Proof. unfold bordering. rewrite bl_app. change (flat_map (fun j => [(dof, j, fofn E 1); (j, dof, fofn E 1)]) (seq 0 dof)) with (frame dof). rewrite bl_frame. cbn [bl]. change (fofn E 0) with 0. ring. Qed.
Lemma bordering_in dof : Forall (inD (S dof)) (bordering E dof).
Proof.
  unfold bordering. apply Forall_app. split; [|repeat constructor; unfold inD; cbn; lia]. apply Forall_forall. intros e He. apply in_flat_map in He. destruct He as (j & Hj & He). apply in_seq in Hj.
  destruct He as [<- |[<- |[]]]; unfold inD; cbn; lia.
Qed.
Lemma inD_weak n m ts : (n <= m)%nat -> Forall (inD n) ts -> Forall (inD m) ts.
Proof. intros Hn. apply Forall_impl. intros e (A & B). split; lia. Qed.
Lemma in_range n ts : Forall (inD n) ts -> forall i j x, In (i, j, x) ts -> (i < n)%nat /\ (j < n)%nat.
Proof. intros H i j x Hin. rewrite Forall_forall in H. exact (H _ Hin). Qed.
Lemma vec_add_ok (x y : list R) n : length x = n -> length y = n -> exists z, vec_add E x y = Ok z /\ length z = n /\ forall i, (i < n)%nat -> nth i z 0 = nth i x 0 + nth i y 0.
Proof.
  intros Hx Hy. unfold vec_add. rewrite Hx, Hy, Nat.eqb_refl. eexists. split; [reflexivity|]. split; [rewrite map_length, combine_length; lia|]. intros i Hi.
  rewrite (nth_indep _ 0 (fadd E (fst (0, 0)) (snd (0, 0)))) by (rewrite map_length, combine_length; lia). rewrite (map_nth (fun p => fadd E (fst p) (snd p)) (combine x y) (0, 0)), combine_nth by lia. reflexivity.
Qed.
Lemma np_max_ok (x : list R) : x <> [] -> exists t, np_max E x = Ok t /\ In t x /\ forall y, In y x -> y <= t.
Proof.
  destruct x as [|a x]; [congruence|]. intros _. unfold np_max. eexists. split; [reflexivity|].
  revert a. induction x as [|z x IH]; intro a; cbn [fold_left]; [split; [left; reflexivity|]; intros y [<- |[]]; lra|].
  rewrite fmax_E. destruct (IH (Rmax a z)) as (I1 & I2). pose proof (I2 (Rmax a z) (or_introl eq_refl)) as I3. pose proof (Rmax_l a z). pose proof (Rmax_r a z). split.
  - destruct I1 as [I1|I1]; [|right; right; exact I1]. rewrite <- I1. unfold Rmax. destruct (Rle_dec a z); [right; left; reflexivity|left; reflexivity].
  - intros y [<- |[<- |Hy]]; [lra|lra|apply I2; right; exact Hy].
Qed.

Section Loop.
Variables (Np K : nat).
Local Notation dof := (Np * K)%nat.
Local Notation nv := nodal_values.
Lemma flat_nodal (m : mat R) : shape m Np K -> length (flattenF m) = dof /\ forall i, (i < dof)%nat -> nth i (flattenF m) 0 = nv m i.
Proof. intros (A & B). rewrite flattenF_len, A, B. split; [reflexivity|]. intros i Hi. rewrite flattenF_at by (rewrite A, B; exact Hi). reflexivity. Qed.
Lemma reshape_nodal (x : list R) : length x = dof -> exists m, reshapeF E Np K x = Ok m /\ shape m Np K /\ forall i, (i < dof)%nat -> nv m i = nth i x 0.
Proof.
  intro Hx. rewrite reshape_ok by exact Hx. eexists. split; [reflexivity|]. split; [split; reflexivity|]. intros i Hi. unfold nodal_values. cbn [ment mrows]. f_equal.
  rewrite (Nat.div_mod i Np) at 3 by nia. lia.
Qed.
Lemma normalised_ok (m : mat R) : shape m Np K -> (0 < dof)%nat ->
  exists o top, normalised E m = Ok o /\ shape o Np K /\ greatest dof (nv m) top /\ forall i, nv o i = nv m i / top.
Proof.
  intros HS Hd. destruct (flat_nodal m HS) as (FL & FA). unfold normalised. destruct (np_max_ok (map (fabs E) (flattenF m))) as (t & Et & It & Mt).
  { intro H. apply map_eq_nil in H. rewrite H in FL. cbn in FL. lia. }
  rewrite Et. cbn [bind]. eexists. exists t. split; [reflexivity|]. split; [exact HS|]. split; [|intro i; reflexivity]. split.
  - apply in_map_iff in It. destruct It as (x & Ex & Hx). apply (In_nth _ _ 0) in Hx. destruct Hx as (i & Hi & Hx). rewrite FL in Hi. exists i. split; [exact Hi|]. rewrite <- (FA i Hi), Hx. exact Ex.
  - intros i Hi. apply Mt. apply in_map_iff. exists (nth i (flattenF m) 0). split; [now rewrite (FA i Hi)|]. apply nth_In. lia.
Qed.
Variables (MM OP : list (nat * nat * R)) (c : R) (sysT : list (nat * nat * R)) (solve : list R -> list R) (B : mat R).
Hypotheses (HM : Forall (inD dof) MM) (HB : shape B Np K).
Hypothesis Hsys : forall x i, (i < dof)%nat -> times dof (matrix sysT) x i = times dof (matrix MM) x i + c * times dof (matrix OP) x i.
Hypothesis Hsolve : forall b, length b = dof -> length (solve b) = dof /\ forall i, (i < dof)%nat -> times dof (matrix sysT) (fun j => nth j (solve b) 0) i = nth i b 0.
Lemma heat_step_ok p : shape p Np K -> exists p', heat_step E Np K MM solve (flattenF B) p = Ok p' /\ shape p' Np K /\
  forall i, (i < dof)%nat -> times dof (matrix MM) (nv p') i + c * times dof (matrix OP) (nv p') i = times dof (matrix MM) (nv p) i + nv B i.
Proof.
  intro Hp. destruct (flat_nodal p Hp) as (PL & PA). destruct (flat_nodal B HB) as (BL & BA). unfold heat_step.
  destruct (sp_dot_ok dof MM (flattenF p) HM PL) as (y & Ey & Ly & Ay). rewrite Ey. cbn [bind].
  destruct (vec_add_ok y (flattenF B) dof Ly BL) as (z & Ez & Lz & Az). rewrite Ez. cbn [bind].
  destruct (Hsolve z Lz) as (Lx & Ax). destruct (reshape_nodal (solve z) Lx) as (m & Em & Sm & Am). rewrite Em. exists m. split; [reflexivity|]. split; [exact Sm|]. intros i Hi.
  rewrite <- Hsys by exact Hi. rewrite (times_ext dof (matrix sysT) _ (fun j => nth j (solve z) 0)) by exact Am. rewrite (Ax i Hi), (Az i Hi), (Ay i Hi), (BA i Hi). f_equal.
  apply times_ext. intros j Hj. apply PA, Hj.
Qed.
(* the states of the loop *)
Definition reaches (q : nat -> nat -> R) (j : nat) (p : mat R) : Prop := shape p Np K /\ forall i, (i < dof)%nat -> c * nv p i = q j i.
Hypothesis Hns : nonsingular dof (matrix sysT).
Variable q : nat -> nat -> R.
Hypothesis Hq : states dof (matrix MM) (matrix OP) c (nv B) q.
Lemma step_reaches j p p' : reaches q j p -> heat_step E Np K MM solve (flattenF B) p = Ok p' -> reaches q (S j) p'.
Proof.
  intros (Sp & Ap) Ep. destruct (heat_step_ok p Sp) as (p2 & E2 & S2 & A2). rewrite E2 in Ep. injection Ep as ->. split; [exact S2|].
  apply (solution_unique dof (matrix sysT)); [exact Hns|]. intros i Hi. rewrite !Hsys by exact Hi. rewrite !times_scal. destruct Hq as (_ & Q). rewrite (Q j i Hi).
  rewrite <- (times_ext dof (matrix MM) (fun k => c * nv p k) (q j)) by exact Ap. rewrite times_scal. pose proof (A2 i Hi). nra.
Qed.
Lemma heat_loop_ok n : (0 < dof)%nat -> forall j p, reaches q j p -> exists outs, heat_loop E Np K MM solve (flattenF B) n (S j) p = Ok outs /\
  map fst outs = filter (fun k => k mod 10 =? 0)%nat (seq (S j) n) /\
  Forall (fun o => shape (snd o) Np K /\ exists s top, reaches q (fst o) s /\ greatest dof (nv s) top /\ forall i, nv (snd o) i = nv s i / top) outs.
Proof.
  intro Hd. induction n as [|n IH]; intros j p Hp.
  - exists []. split; [reflexivity|]. split; [reflexivity|constructor].
  - destruct (heat_step_ok p (proj1 Hp)) as (p' & Ep & _). pose proof (step_reaches j p p' Hp Ep) as Hp'. destruct (IH (S j) p' Hp') as (outs & Eo & Fo & Ao).
    cbn [heat_loop]. rewrite Ep. cbn [bind]. cbn [seq filter]. destruct (S j mod 10 =? 0)%nat.
    + destruct (normalised_ok p' (proj1 Hp') Hd) as (o & top & En & So & Gt & At). rewrite En. cbn [bind]. rewrite Eo. cbn [bind]. eexists. split; [reflexivity|]. split; [cbn; now rewrite Fo|].
      cbn [app]. constructor; [|exact Ao]. cbn [fst snd]. split; [exact So|]. exists p', top. auto.
    + cbn [bind]. rewrite Eo. cbn [bind]. eexists. split; [reflexivity|]. split; [exact Fo|exact Ao].
Qed.
End Loop.
End Pieces.
