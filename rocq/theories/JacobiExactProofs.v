(* JacobiExactProofs.v - exactness of the Gauss rule for all polynomials, and supporting witnesses. *)
From Coq Require Import ZArith List Reals Lra Lia Arith Bool.
From Verif Require Import Base Num JacobiModel JacobiSpec JacobiProofs JacobiOrthProofs JacobiQuadProofs.
Import ListNotations.
Local Open Scope R_scope.

(* --- quadrature is linear --- *)
Lemma quad_ext xs ws f g : (forall x, f x = g x) -> quadrature xs ws f = quadrature xs ws g.
Proof. intro E. unfold quadrature. f_equal. apply map_ext. intros [x w]. rewrite E. reflexivity. Qed.
Lemma quad_lin xs ws c f g : quadrature xs ws (fun x => c * f x + g x) = c * quadrature xs ws f + quadrature xs ws g.
Proof. unfold quadrature. induction (combine xs ws) as [|[x w] l IH]; cbn; [ring|]. rewrite IH. ring. Qed.
Lemma quad_zero xs ws : quadrature xs ws (fun _ => 0) = 0.
Proof. unfold quadrature. induction (combine xs ws) as [|[x w] l IH]; cbn; [ring|]. rewrite IH. ring. Qed.

Section Span.
Variables (G : R -> R) (al be : R).
Hypothesis HG : gamma_like G.
Hypothesis Ha : -1 < al. Hypothesis Hb : -1 < be. Hypothesis Hs : al + be <> -1.
Local Notation P := (jac G al be).
Fixpoint lin (l : list (nat * R)) (x : R) : R := match l with [] => 0 | kc :: l' => snd kc * P (fst kc) x + lin l' x end.
Definition below (d : nat) (l : list (nat * R)) : Prop := Forall (fun kc => (fst kc <= d)%nat) l.

Lemma lin_app l m x : lin (l ++ m) x = lin l x + lin m x.
Proof. induction l as [|[k c] l IH]; cbn [lin app fst snd]; [ring|]. rewrite IH. ring. Qed.
Lemma xP k x : x * P k x = aa al be (INR (S k)) * P (S k) x + bn al be k * P k x + match k with O => 0 | S h => aa al be (INR k) * P h x end.
Proof. destruct k as [|h]; [rewrite jac_rec0 by assumption; ring | rewrite jac_rec by assumption; ring]. Qed.
Lemma lin_x d l : below d l -> exists m, below (S d) m /\ forall x, lin m x = x * lin l x.
Proof.
  induction l as [|[k c] l IH]; intro Hl.
  - exists []. split; [constructor|]. intro. cbn. ring.
  - inversion Hl as [|? ? Hk Hl']; subst. cbn [fst] in Hk. destruct (IH Hl') as (m & Bm & Em).
    exists ([(S k, c * aa al be (INR (S k))); (k, c * bn al be k); (pred k, match k with O => 0 | S _ => c * aa al be (INR k) end)] ++ m). split.
    + apply Forall_app. split; [|exact Bm]. cbn [app]; repeat (apply Forall_cons; [cbn [fst]; lia|]). apply Forall_nil.
    + intro x. rewrite lin_app, Em. cbn [lin fst snd]. rewrite Rmult_plus_distr_l.
      replace (x * (c * P k x)) with (c * (x * P k x)) by ring. rewrite xP. destruct k; cbn [pred]; ring.
Qed.
Lemma pow_span i : exists l, below i l /\ forall x, lin l x = x ^ i.
Proof.
  induction i as [|i (l & Bl & El)].
  - exists [(0%nat, nrm G al be 0)]. split; [repeat constructor|]. intro x. cbn [lin fst snd pow]. unfold jac. rewrite mon0.
    pose proof (nrm_pos G al be Ha Hb Hs HG 0). field. lra.
  - destruct (lin_x i l Bl) as (m & Bm & Em). exists m. split; [exact Bm|]. intro x. rewrite Em, El. reflexivity.
Qed.

(* a linear functional known on products of basis functions is known on products of monomials *)
Variables (Q : (R -> R) -> R -> Prop).
Hypothesis Qext : forall f g v, (forall x, f x = g x) -> Q f v -> Q g v.
Hypothesis Qlin : forall c f g v w, Q f v -> Q g w -> Q (fun x => c * f x + g x) (c * v + w).
Hypothesis Q0 : Q (fun _ => 0) 0.
Definition sm (d1 d2 : nat) (v : nat -> nat -> R) (l m : list (nat * R)) : R :=
  fold_right (fun kc acc => snd kc * fold_right (fun jc acc2 => snd jc * v (fst kc) (fst jc) + acc2) 0 m + acc) 0 l.
Lemma Q_prod d1 d2 v l m : (forall a b, (a <= d1)%nat -> (b <= d2)%nat -> Q (fun x => P a x * P b x) (v a b)) ->
  below d1 l -> below d2 m -> Q (fun x => lin l x * lin m x) (sm d1 d2 v l m).
Proof.
  intros Hv Bl Bm. induction l as [|[k c] l IH]; cbn [sm fold_right fst snd].
  - apply Qext with (fun _ => 0); [intro; cbn [lin]; ring|]. exact Q0.
  - inversion Bl as [|? ? Hk Bl']; subst. cbn [fst] in Hk.
    apply Qext with (fun x => c * (P k x * lin m x) + lin l x * lin m x); [intro; cbn [lin fst snd]; ring|].
    apply Qlin; [|exact (IH Bl')]. clear IH Bl Bl' l.
    induction m as [|[j e] m IHm]; cbn [fold_right fst snd].
    + apply Qext with (fun _ => 0); [intro; cbn [lin]; ring|]. exact Q0.
    + inversion Bm as [|? ? Hj Bm']; subst. cbn [fst] in Hj.
      apply Qext with (fun x => e * (P k x * P j x) + P k x * lin m x); [intro; cbn [lin fst snd]; ring|].
      apply Qlin; [apply Hv; assumption | exact (IHm Bm')].
Qed.
End Span.

(* Two functionals that agree on products of basis functions agree on polynomials. *)
Section Exact.
Variables (G : R -> R) (a b N : nat) (eps : R) (xs ws : list R).
Hypothesis HG : gamma_like G.
Local Notation P := (jac G (INR a) (INR b)).
Hypothesis HO : forall i j, (i <= N)%nat -> (j <= S N)%nat -> quadrature xs ws (fun x => P i x * P j x) = if (i =? j)%nat then 1 else 0.
Definition Qx (f : R -> R) (v : R) : Prop := quadrature xs ws f = v /\ integral_is (fun x => weight a b x * f x) (-1) 1 v.
Lemma Qx_ext f g v : (forall x, f x = g x) -> Qx f v -> Qx g v.
Proof. intros E [A B]. split; [rewrite <- (quad_ext _ _ f g E); exact A|]. apply integral_ext with (2 := B). intro x. rewrite E. reflexivity. Qed.
Lemma Qx_lin c f g v w : Qx f v -> Qx g w -> Qx (fun x => c * f x + g x) (c * v + w).
Proof.
  intros [A B] [A' B']. split; [rewrite quad_lin, A, A'; reflexivity|].
  apply integral_ext with (fun x => c * (weight a b x * f x) + weight a b x * g x); [intro; ring|].
  apply integral_plus; [apply integral_scal; exact B | exact B'].
Qed.
Lemma Qx_0 : Qx (fun _ => 0) 0.
Proof. split; [apply quad_zero|]. apply integral_ext with (fun _ => 0); [intro; ring|]. apply integral_zero. Qed.
Lemma Qx_pow k : (k <= 2 * N + 1)%nat -> exists v, Qx (fun x => x ^ k) v.
Proof.
  intro Hk. set (i := Nat.min k N). set (j := (k - i)%nat).
  destruct (pow_span G (INR a) (INR b) HG (natp a) (natp b) (nats a b) i) as (l & Bl & El).
  destruct (pow_span G (INR a) (INR b) HG (natp a) (natp b) (nats a b) j) as (m & Bm & Em).
  eexists. apply Qx_ext with (fun x => lin G (INR a) (INR b) l x * lin G (INR a) (INR b) m x).
  - intro x. rewrite El, Em, <- pow_add. f_equal. lia.
  - apply (Q_prod G (INR a) (INR b) Qx Qx_ext Qx_lin Qx_0 N (S N) (fun i j => if (i =? j)%nat then 1 else 0)).
    + intros u w Hu Hw. split; [apply HO; assumption|].
      apply integral_ext with (fun x => weight a b x * P u x * P w x); [intro; ring|]. apply orth. exact HG.
    + eapply Forall_impl; [|exact Bl]. cbv beta. intros; lia.
    + eapply Forall_impl; [|exact Bm]. cbv beta. intros; lia.
Qed.
Lemma Qx_poly cs : forall k, (k + length cs <= 2 * N + 2)%nat -> exists v, Qx (fun x => x ^ k * peval cs x) v.
Proof.
  induction cs as [|c cs IH]; intros k Hk.
  - exists 0. apply Qx_ext with (fun _ => 0); [intro; cbn; ring|]. exact Qx_0.
  - cbn [length] in Hk. destruct (IH (S k) ltac:(lia)) as (v & Hv). destruct (Qx_pow k ltac:(lia)) as (w & Hw).
    exists (c * w + v). apply Qx_ext with (fun x => c * x ^ k + x ^ S k * peval cs x);
      [intro x; change (peval (c :: cs) x) with (c + x * peval cs x); cbn [pow]; ring|]. apply Qx_lin; assumption.
Qed.
Lemma exactness cs : (length cs <= 2 * N + 2)%nat -> integral_is (fun x => weight a b x * peval cs x) (-1) 1 (quadrature xs ws (peval cs)).
Proof.
  intro Hl. destruct (Qx_poly cs 0 Hl) as (v & [A B]).
  rewrite (quad_ext _ _ (peval cs) (fun x => x ^ 0 * peval cs x)) by (intro; cbn; ring). rewrite A.
  apply integral_ext with (2 := B). intro. cbn. ring.
Qed.
End Exact.

(* The computed function is a polynomial of degree N with positive leading coefficient. *)
Fixpoint padd (p q : list R) : list R :=
  match p, q with [], _ => q | _, [] => p | a :: p', b :: q' => (a + b) :: padd p' q' end.
Lemma padd_eval p : forall q x, peval (padd p q) x = peval p x + peval q x.
Proof. induction p as [|a p IH]; intros [|b q] x; cbn; try ring. rewrite IH. ring. Qed.
Lemma padd_len p : forall q, length (padd p q) = Nat.max (length p) (length q).
Proof. induction p as [|a p IH]; intros [|b q]; cbn; try lia. rewrite IH. lia. Qed.
Lemma padd_nth p : forall q n, nth n (padd p q) 0 = nth n p 0 + nth n q 0.
Proof. induction p as [|a p IH]; intros [|b q] [|n]; cbn; try ring. apply IH. Qed.
Fixpoint pscal (c : R) (p : list R) := match p with [] => [] | a :: p' => c * a :: pscal c p' end.
Lemma pscal_len c p : length (pscal c p) = length p. Proof. induction p; cbn; congruence. Qed.
Lemma pscal_eval c p x : peval (pscal c p) x = c * peval p x.
Proof. induction p as [|a p IH]; cbn; [ring|]. rewrite IH. ring. Qed.
Lemma pscal_nth c p n : nth n (pscal c p) 0 = c * nth n p 0.
Proof. revert n. induction p as [|a p IH]; intros [|n]; cbn; try ring. apply IH. Qed.
Lemma mon_poly al be n : (exists cs, length cs = S n /\ nth n cs 0 = 1 /\ forall x, mon al be n x = peval cs x).
Proof.
  induction n as [n IH] using lt_wf_ind. destruct n as [|[|n]].
  - exists [1]. repeat split. intro. cbn. ring.
  - exists [- bn al be 0; 1]. repeat split. intro. rewrite mon1. cbn. ring.
  - destruct (IH (S n) ltac:(lia)) as (c1 & L1 & T1 & E1). destruct (IH n ltac:(lia)) as (c0 & L0 & T0 & E0).
    exists (padd (0 :: c1) (padd (pscal (- bn al be (S n)) c1) (pscal (- a2 al be (INR (S n))) c0))). repeat split.
    + rewrite !padd_len. rewrite !pscal_len. cbn [length]. lia.
    + rewrite !padd_nth, !pscal_nth. rewrite (nth_overflow c1) by lia. rewrite (nth_overflow c0) by lia. cbn [nth]. rewrite T1. ring.
    + intro x. rewrite monSS, !padd_eval, !pscal_eval, E1, E0. cbn [peval]. ring.
Qed.

(* A function satisfying the functional equation of gamma, with value (n-1)! at the positive integers. *)
Fixpoint gprod (f : R) (n : nat) : R :=
  match n with O => 1 | S m => gprod f m * (if Req_EM_T (f + INR m) 0 then 1 else f + INR m) end.
Definition gpos (x : R) : R := gprod (x - IZR (Int_part x)) (Z.to_nat (Int_part x)).
Definition gwit (x : R) : R := if Rlt_dec x 0 then gpos (x + 1) / x else gpos x.
Lemma Int_part_is r z : r - 1 < IZR z <= r -> z = Int_part r.
Proof. intro H. unfold Int_part. rewrite <- (tech_up r (z + 1)); [lia | rewrite plus_IZR; lra | rewrite plus_IZR; lra]. Qed.
Lemma int_part_nonneg x : 0 <= x -> (0 <= Int_part x)%Z.
Proof.
  intro H. destruct (base_Int_part x) as [A B]. apply le_IZR. destruct (Z_lt_le_dec (Int_part x) 0) as [L|L]; [|apply IZR_le; assumption].
  assert (IZR (Int_part x) <= -1) by (apply IZR_le; lia). lra.
Qed.
Lemma int_part_succ x : Int_part (x + 1) = (Int_part x + 1)%Z.
Proof.
  symmetry. apply Int_part_is. rewrite plus_IZR. destruct (base_Int_part x). lra.
Qed.
Lemma gpos_step x : 0 < x -> gpos (x + 1) = x * gpos x.
Proof.
  intro H. unfold gpos. rewrite int_part_succ. pose proof (int_part_nonneg x ltac:(lra)).
  replace (Z.to_nat (Int_part x + 1)) with (S (Z.to_nat (Int_part x))) by lia.
  rewrite plus_IZR. replace (x + 1 - (IZR (Int_part x) + 1)) with (x - IZR (Int_part x)) by ring.
  cbn [gprod]. rewrite INR_IZR_INZ, Z2Nat.id by assumption.
  destruct (Req_EM_T (x - IZR (Int_part x) + IZR (Int_part x)) 0); [lra|]. ring.
Qed.
Lemma gprod_pos f n : 0 <= f -> 0 < gprod f n.
Proof.
  intro Hf. induction n; cbn [gprod]; [lra|]. apply Rmult_lt_0_compat; [assumption|].
  destruct (Req_EM_T (f + INR n) 0); [lra|]. pose proof (pos_INR n). lra.
Qed.
Lemma gwit_ok : gamma_like gwit.
Proof.
  repeat split.
  - intros x Hx H1. unfold gwit. destruct (Rlt_dec x 0) as [L|L].
    + destruct (Rlt_dec (x + 1) 0); [lra|]. field. lra.
    + destruct (Rlt_dec (x + 1) 0); [lra|]. apply gpos_step. lra.
  - intros x H. unfold gwit. destruct (Rlt_dec x 0); [lra|]. apply gprod_pos. destruct (base_Int_part x). lra.
  - unfold gwit. destruct (Rlt_dec 1 0); [lra|]. unfold gpos.
    assert (E : Int_part 1 = 1%Z) by (symmetry; apply Int_part_is; lra). rewrite E. change (Z.to_nat 1) with 1%nat. cbn [gprod INR].
    replace (1 - 1 + 0) with 0 by lra. destruct (Req_EM_T 0 0); [lra|contradiction].
Qed.

(* When alpha+beta < 0 the first diagonal entry is 0: the computed rule has first moment 0. *)
Section First.
Variables (G : R -> R) (al be eps : R) (N : nat).
Hypothesis HG : gamma_like G.
Hypothesis Ha : -1 < al. Hypothesis Hb : -1 < be. Hypothesis Hs : al + be <> -1.
Hypothesis Heps : 0 <= eps. Hypothesis Hneg : al + be < 10 * eps. Hypothesis Hne : al <> be.
Local Notation E := (exact G). Local Notation J := (quad_matrix E eps al be N). Local Notation P := (jac G al be).
Variables (xs : list R) (V : nat -> nat -> R).
Hypothesis HE : eigen_solution (S N) J xs V.
Local Notation wt := (map (fun j => fmul E (fmul E (V 0%nat j) (V 0%nat j)) (gamma0 E al be)) (seq 0 (S N))).
Lemma J00 : J 0%nat 0%nat = 0.
Proof.
  unfold quad_matrix, quad_upper, quad_diag. cbn [Nat.ltb Nat.leb Nat.eqb andb]. rewrite !fofn_INR. cbn [exact fadd fmul flt].
  replace (INR 10) with 10 by (simpl; lra). unfold Rltb. destruct (Rlt_dec (al + be) (10 * eps)); [|contradiction]. cbn [INR]. lra.
Qed.
Lemma first_moment : quadrature xs wt (fun x => P 0 x * P 1 x) <> 0.
Proof.
  destruct HE as (HL & HJ & HR & _).
  assert (Q : quadrature xs wt (fun x => P 0 x * P 1 x) = sumn (S N) (fun j => V 0%nat j * V 0%nat j * g0 G al be * (P 0 (nth j xs 0) * P 1 (nth j xs 0)))).
  { rewrite <- HL. rewrite (quadrature_sum xs (fun j => fmul E (fmul E (V 0%nat j) (V 0%nat j)) (gamma0 E al be)) _ 0). unfold sumn. f_equal. }
  rewrite Q. pose proof (g0_pos G al be Ha Hb Hs HG) as Gp. pose proof (aa_pos al be Ha Hb Hs 1 ltac:(lia)) as Ap.
  assert (Sum0 : sumn (S N) (fun j => V 0%nat j * V 0%nat j) = 1) by (apply (HR 0%nat 0%nat); lia).
  assert (Sum1 : sumn (S N) (fun j => V 0%nat j * V 0%nat j * nth j xs 0) = 0).
  { rewrite (sumn_ext _ _ (fun j => sumn (S N) (fun k => J 0%nat k * (V k j * V 0%nat j)))).
    2:{ intros j Hj. rewrite (sumn_ext _ _ (fun k => V 0%nat j * (J 0%nat k * V k j))) by (intros; ring). rewrite sumn_scal, HJ by lia. ring. }
    rewrite sumn_swap. rewrite (sumn_ext _ _ (fun k => if (k =? 0)%nat then J 0%nat k else 0)).
    2:{ intros k Hk. rewrite sumn_scal, HR by lia. destruct (k =? 0)%nat; ring. }
    rewrite (sumn_if (S N) 0) by lia. apply J00. }
  rewrite (sumn_ext _ _ (fun j => / aa al be (INR 1) * (V 0%nat j * V 0%nat j * nth j xs 0) + (- (bn al be 0 / aa al be (INR 1))) * (V 0%nat j * V 0%nat j))).
  2:{ intros j Hj. unfold jac. rewrite mon0, mon1. change (nrm G al be 1) with (nrm G al be 0 * aa al be (INR 1)). cbn [nrm].
      pose proof (sqrt_lt_R0 _ Gp) as Sp. pose proof (sqrt_sqrt (g0 G al be) ltac:(lra)) as Sq.
      generalize dependent (sqrt (g0 G al be)). intros r Sp Sq. rewrite <- Sq. field. lra. }
  rewrite sumn_plus, !sumn_scal, Sum0, Sum1. intro Z0.
  assert (B0 : bn al be 0 = 0). { apply Rmult_eq_reg_r with (/ aa al be (INR 1)); [unfold Rdiv in Z0; lra | apply Rinv_neq_0_compat; lra]. }
  unfold bn in B0. assert (be - al = 0); [|lra].
  apply Rmult_eq_reg_r with (/ (al + be + 2)); [unfold Rdiv in B0; lra | apply Rinv_neq_0_compat; lra].
Qed.
End First.
