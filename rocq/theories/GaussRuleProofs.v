(* GaussRuleProofs.v - the Gauss-Legendre rule computed by computeJacobiQuadWeights(0, 0, NG-1): distinct points of (-1,1)
   symmetric about 0, positive weights, exact for degree 2 NG - 1. *)
From Coq Require Import ZArith List Arith Lia.
From Verif Require Import Base Loops Num JacobiModel JacobiSpec JacobiProofs TriNodesProofs JacobiQuadProofs JacobiExactProofs JacobiOrthProofs GllProofs TriLiftProofs TriOpProofs TriDGProofs.
From Coq Require Import Reals Lra.
Import ListNotations.
Local Open Scope R_scope.

Lemma quad_sumn f : forall xs ws, length xs = length ws -> quadrature xs ws f = sumn (length xs) (fun j => nth j ws 0 * f (nth j xs 0)).
Proof.
  unfold quadrature, sumn. intros xs. induction xs as [|x xs IH]; intros [|w ws] L; try discriminate; [reflexivity|].
  cbn [combine map fold_right length seq nth]. f_equal. rewrite IH by (cbn in L; lia). rewrite <- seq_shift, map_map. reflexivity.
Qed.

Record rule (NG : nat) (z w : list R) : Prop := Rule {
  ru_z : length z = NG; ru_w : length w = NG;
  ru_in : forall g, (g < NG)%nat -> -1 < nth g z 0 < 1;
  ru_pos : forall g, (g < NG)%nat -> 0 < nth g w 0;
  ru_inc : forall g, (S g < NG)%nat -> nth g z 0 < nth (S g) z 0;
  ru_sym : forall g, (g < NG)%nat -> nth (NG - 1 - g) z 0 = - nth g z 0;
  ru_exact : forall cs, (length cs <= 2 * NG)%nat -> integral_is (peval cs) (-1) 1 (sumn NG (fun g => nth g w 0 * peval cs (nth g z 0))) }.

Section Rule.
Variables (G : R -> R) (eps : R) (eig : nat -> (nat -> nat -> R) -> list R * (nat -> nat -> R)) (NG : nat).
Hypothesis HG : gamma_like G.
Hypothesis He : 0 <= eps.
Hypothesis H1 : (1 <= NG)%nat.
Hypothesis HE : (2 <= NG)%nat -> let J := quad_matrix (exact G) eps 0 0 (NG - 1) in eigen_solution NG J (fst (eig NG J)) (snd (eig NG J)).

Theorem gauss_rule : exists z w, computeJacobiQuadWeights (exact G) eig eps 0 0 (NG - 1) = (z, w) /\ rule NG z w.
Proof.
  destruct NG as [|[|m]]; [lia| |].
  - exists [- (0 - 0) / (0 + 0 + 2)], [2]. split; [reflexivity|]. apply Rule; [reflexivity|reflexivity| | | | |].
    + intros [|g] Hg; [|lia]. cbn [nth]. lra.
    + intros [|g] Hg; [|lia]. cbn [nth]. lra.
    + intros; lia.
    + intros [|g] Hg; [|lia]. cbn [Nat.sub nth]. lra.
    + intros cs Lc. unfold sumn. cbn [seq map fold_right nth]. destruct cs as [|a [|b [|]]]; [| | |cbn in Lc; lia]; cbn [peval].
      * eapply integral_val; [|apply integral_zero]. ring.
      * exists (fun x => a * x). split; [|cbn; field]. intros x. replace (a + x * 0) with (a * 1) by ring. apply derivable_pt_lim_scal, derivable_pt_lim_id.
      * exists (fun x => a * x + b / 2 * (x * x)). split; [|cbn; field]. intros x. replace (a + x * (b + x * 0)) with (a * 1 + b / 2 * (1 * x + x * 1)) by field.
        apply derivable_pt_lim_plus; apply derivable_pt_lim_scal; [apply derivable_pt_lim_id|]. apply (derivable_pt_lim_mult id id); apply derivable_pt_lim_id.
  - specialize (HE ltac:(lia)). cbv zeta in HE. replace (S (S m) - 1)%nat with (S m) in * by lia.
    unfold computeJacobiQuadWeights. change (fofn (exact G) 0) with 0 in *. destruct (eig (S (S m)) (quad_matrix (exact G) eps 0 0 (S m))) as [xs V] eqn:Ee. cbn [fst snd] in HE.
    eexists. eexists. split; [reflexivity|].
    assert (a0 : -1 < 0) by lra. assert (s0 : 0 + 0 <> -1) by lra.
    pose proof (node_zero G 0 0 eps (S m) HG a0 a0 s0 He (or_introl eq_refl) xs V HE) as Z0.
    pose proof (node_inside G 0 0 eps (S m) HG a0 a0 s0 He (or_introl eq_refl) xs V HE) as Zi.
    pose proof (node_increasing G 0 0 eps (S m) HG a0 a0 s0 He (or_introl eq_refl) xs V HE) as Zu.
    pose proof (weights_pos G 0 0 eps (S m) HG a0 a0 s0 He (or_introl eq_refl) xs V HE) as Wp.
    pose proof (gauss_orth G 0 0 eps (S m) HG a0 a0 s0 He (or_introl eq_refl) xs V HE) as Or.
    assert (Lx : length xs = S (S m)) by apply HE.
    set (ws := map _ (seq 0 (S (S m)))) in *. assert (Lw : length ws = S (S m)) by (unfold ws; rewrite map_length, seq_length; reflexivity).
    split; [exact Lx|exact Lw| | | | |].
    + intros g Hg. apply Zi. lia.
    + intros g Hg. apply Wp. lia.
    + intros g Hg. apply Zu. lia.
    + destruct (mon_poly 0 0 (S (S m))) as (cs & Lc & _ & Hc).
      set (l' := map (fun i => - nth (S m - i) xs 0) (seq 0 (S (S m)))).
      assert (Hn : forall i, (i <= S m)%nat -> nth i l' 0 = - nth (S m - i) xs 0) by (intros i Hi; unfold l'; rewrite (map_seq_nth _ (S (S m)) i) by lia; reflexivity).
      assert (E : xs = l').
      { apply (roots_unique cs (S (S m))); [lia| |exact Lx|unfold l'; rewrite map_length, seq_length; reflexivity| | | |].
        - exists 1. rewrite <- Hc. pose proof (mon_at1_pos 0 0 ltac:(lra) ltac:(lra) ltac:(lra) (S (S m))). lra.
        - intros i Hi. apply Zu. rewrite Lx in Hi. lia.
        - intros i Hi. unfold l' in Hi. rewrite map_length, seq_length in Hi. rewrite !Hn by lia. pose proof (Zu (S m - S i)%nat ltac:(lia)) as X. replace (S (S m - S i)) with (S m - i)%nat in X by lia. lra.
        - intros x Hx. destruct (In_nth _ _ 0 Hx) as (i & Hi & <-). rewrite <- Hc. apply (jac_zero_mon G 0 0 eps HG a0 a0 s0 He). apply Z0. lia.
        - intros x Hx. unfold l' in Hx. apply in_map_iff in Hx as (i & <- & Hi). apply in_seq in Hi. rewrite <- Hc, mon_parity by lra.
          rewrite (jac_zero_mon G 0 0 eps HG a0 a0 s0 He) by (apply Z0; lia). ring. }
      intros g Hg. replace (S (S m) - 1 - g)%nat with (S m - g)%nat by lia. pose proof (Hn g ltac:(lia)) as X. rewrite <- E in X. lra.
    + intros cs Lc. pose proof (exactness G 0 0 (S m) xs ws HG) as X. cbn [INR] in X. specialize (X Or cs ltac:(lia)).
      rewrite quad_sumn, Lx in X by lia. eapply integral_ext; [|exact X]. intro x. cbv beta. unfold weight. cbn [pow]. ring.
Qed.
End Rule.

Fixpoint pflip (s : R) (cs : list R) : list R := match cs with [] => [] | c :: t => s * c :: pflip (- s) t end.
Lemma pflip_len : forall cs s, length (pflip s cs) = length cs.
Proof. induction cs; intro s; cbn [pflip length]; [reflexivity|]. rewrite IHcs. reflexivity. Qed.
Lemma pflip_eval x : forall cs s, peval (pflip s cs) x = s * peval cs (- x).
Proof. induction cs as [|c t IH]; intro s; cbn [pflip peval]; [ring|]. rewrite IH. ring. Qed.

(* The weights are symmetric as well. *)
Lemma rule_wsym NG z w g : rule NG z w -> (g < NG)%nat -> nth (NG - 1 - g) w 0 = nth g w 0.
Proof.
  intros [Lz Lw Hin Hp Hi Hs He] Hg. assert (Hr : rincr z) by (intros i Hi'; apply Hi; lia). assert (ND := rincr_nodup z Hr).
  destruct (newton z ND (fun i => delta g i)) as (cs & Lc & Hc). rewrite Lz in Lc, Hc.
  pose proof (He cs ltac:(lia)) as I1. pose proof (He (pflip 1 cs) ltac:(rewrite pflip_len; lia)) as I2. apply integral_flip in I2.
  assert (I3 : integral_is (peval cs) (-1) 1 (sumn NG (fun g0 => nth g0 w 0 * peval (pflip 1 cs) (nth g0 z 0)))).
  { eapply integral_ext; [|exact I2]. intro x. cbn beta. rewrite pflip_eval, Ropp_involutive. ring. }
  pose proof (integral_unique _ _ _ _ _ I1 I3) as E.
  rewrite (sumn_ext _ _ (fun i => delta g i * nth i w 0)) in E by (intros i Hi'; rewrite Hc by lia; ring).
  rewrite (sumn_ext _ (fun g0 => nth g0 w 0 * peval (pflip 1 cs) (nth g0 z 0)) (fun i => delta (NG - 1 - g) i * nth i w 0)) in E.
  - rewrite !sumn_delta in E by lia. symmetry. exact E.
  - intros i Hi'. rewrite pflip_eval, <- Hs by lia. rewrite Hc by lia. unfold delta. destruct (Nat.eqb_spec g (NG - 1 - i)), (Nat.eqb_spec (NG - 1 - g) i); try lia; ring.
Qed.
