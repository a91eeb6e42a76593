(* TriBasisProofs.v - the orthonormal simplex basis: polynomials, gradients, span, orthonormality. *)
From Coq Require Import ZArith List Lia Bool Arith.
From Verif Require Import Base Loops Num BlitzModel JacobiModel JacobiSpec JacobiProofs JacobiOrthProofs JacobiQuadProofs JacobiExactProofs DenseSpec Nodes1DModel Nodes1DSpec Nodes1DExactProofs TriModel TriSpec.
From Coq Require Import Reals Lra.
Import ListNotations.
Local Open Scope R_scope.

(* ---- polynomials in two variables ---- *)
Definition tpoly (N : nat) (f : R -> R -> R) : Prop := exists p, degree2 N p /\ forall r s, f r s = eval2 p r s.
Lemma eval2_app p q r s : eval2 (p ++ q) r s = eval2 p r s + eval2 q r s.
Proof. induction p as [|[[i j] c] p IH]; cbn [app eval2]; [ring|]. rewrite IH. ring. Qed.
Lemma tpoly_ext N f g : (forall r s, f r s = g r s) -> tpoly N f -> tpoly N g.
Proof. intros H (p & D & E). exists p. split; [exact D|]. intros. rewrite <- H. apply E. Qed.
Lemma degree2_le N M p : (N <= M)%nat -> degree2 N p -> degree2 M p.
Proof. intros H. unfold degree2. apply Forall_impl. cbv beta. intros; lia. Qed.
Lemma tpoly_le N M f : (N <= M)%nat -> tpoly N f -> tpoly M f.
Proof. intros H (p & D & E). exists p. split; [|exact E]. eapply degree2_le; eauto. Qed.
Lemma tpoly_plus N f g : tpoly N f -> tpoly N g -> tpoly N (fun r s => f r s + g r s).
Proof. intros (p & D & E) (q & D' & E'). exists (p ++ q). split; [apply Forall_app; auto|]. intros. rewrite eval2_app, E, E'. reflexivity. Qed.
Definition mono2 (a b : nat) (c : R) (p : poly2) : poly2 := map (fun t => ((a + fst (fst t))%nat, (b + snd (fst t))%nat, c * snd t)) p.
Lemma mono2_eval a b c p r s : eval2 (mono2 a b c p) r s = c * r ^ a * s ^ b * eval2 p r s.
Proof. induction p as [|[[i j] d] p IH]; cbn [mono2 map eval2 fst snd]; [ring|]. fold (mono2 a b c p). rewrite IH, !pow_add. ring. Qed.
Lemma mono2_deg a b c p N : degree2 N p -> degree2 (a + b + N) (mono2 a b c p).
Proof. intro H. unfold degree2, mono2. apply Forall_map. eapply Forall_impl; [|exact H]. cbn [fst snd]. intros; lia. Qed.
Lemma tpoly_mul N M f g : tpoly N f -> tpoly M g -> tpoly (N + M) (fun r s => f r s * g r s).
Proof.
  intros (p & D & E) (q & D' & E'). exists (flat_map (fun t => mono2 (fst (fst t)) (snd (fst t)) (snd t) q) p). split.
  - unfold degree2. apply Forall_flat_map. eapply Forall_impl; [|exact D]. intros t Ht. cbv beta in Ht.
    eapply degree2_le; [|apply mono2_deg; exact D']. lia.
  - intros r s. rewrite E, E'. clear D E. induction p as [|[[i j] c] p IH]; cbn [flat_map eval2 fst snd]; [ring|].
    rewrite eval2_app, mono2_eval, <- IH. ring.
Qed.
Lemma tpoly_const c : tpoly 0 (fun _ _ => c).
Proof. exists [(0%nat, 0%nat, c)]. split; [constructor; [cbn; lia|constructor]|]. intros. cbn. ring. Qed.
Lemma tpoly_r : tpoly 1 (fun r _ => r).
Proof. exists [(1%nat, 0%nat, 1)]. split; [constructor; [cbn; lia|constructor]|]. intros. cbn. ring. Qed.
Lemma tpoly_s : tpoly 1 (fun _ s => s).
Proof. exists [(0%nat, 1%nat, 1)]. split; [constructor; [cbn; lia|constructor]|]. intros. cbn. ring. Qed.
Lemma tpoly_pow N f n : tpoly N f -> tpoly (n * N) (fun r s => f r s ^ n).
Proof.
  intro H. induction n as [|n IH]; [cbn [pow]; apply tpoly_const|]. cbn [pow Nat.mul]. apply tpoly_mul; assumption.
Qed.
Lemma tpoly_scal N c f : tpoly N f -> tpoly N (fun r s => c * f r s).
Proof. intro H. exact (tpoly_mul 0 N _ _ (tpoly_const c) H). Qed.
Lemma tpoly_peval N f cs n : tpoly N f -> (length cs <= S n)%nat -> tpoly (n * N) (fun r s => peval cs (f r s)).
Proof.
  intro H. revert n. induction cs as [|c cs IH]; intros n Hl; cbn [peval].
  - eapply tpoly_le; [|apply (tpoly_const 0)]. lia.
  - apply tpoly_plus; [eapply tpoly_le; [|apply tpoly_const]; lia|]. destruct n as [|n].
    + destruct cs; [|cbn in Hl; lia]. cbn [peval]. eapply tpoly_ext; [|apply (tpoly_const 0)]. intros; cbn; ring.
    + cbn [Nat.mul]. apply tpoly_mul; [exact H|]. apply IH. cbn in Hl. lia.
Qed.

(* ---- homogenised polynomials: sum of c_k v^k u^(n-k) ---- *)
Fixpoint hom (cs : list R) (n : nat) (v u : R) : R := match cs with [] => 0 | c :: cs' => c * u ^ n + v * hom cs' (pred n) v u end.
Lemma hom_peval cs : forall n v u, u <> 0 -> (length cs <= S n)%nat -> hom cs n v u = u ^ n * peval cs (v / u).
Proof.
  induction cs as [|c cs IH]; intros n v u Hu Hl; cbn [hom peval]; [ring|]. cbn [length] in Hl. destruct n as [|n].
  - destruct cs; [cbn; ring|cbn in Hl; lia].
  - cbn [pred]. rewrite IH by (auto; lia). cbn [pow]. field. exact Hu.
Qed.
Lemma hom_zero cs : forall n v, (length cs <= S n)%nat -> hom cs n v 0 = nth n cs 0 * v ^ n.
Proof.
  induction cs as [|c cs IH]; intros n v Hl; cbn [hom nth]; [destruct n; ring|]. cbn [length] in Hl. destruct n as [|n].
  - destruct cs; [cbn; ring|cbn in Hl; lia].
  - cbn [pred nth pow]. rewrite IH by lia. ring.
Qed.
Fixpoint dpeval (cs : list R) (x : R) : R := match cs with [] => 0 | _ :: cs' => peval cs' x + x * dpeval cs' x end.
Lemma dpeval_ok cs x : derivable_pt_lim (peval cs) x (dpeval cs x).
Proof.
  induction cs as [|c cs IH]; [apply (dpl_ext (fun _ => 0)); [reflexivity|apply derivable_pt_lim_const]|].
  cbn [dpeval]. apply (dpl_ext (fun t => c + t * peval cs t)); [reflexivity|].
  replace (peval cs x + x * dpeval cs x) with (0 + (1 * peval cs x + x * dpeval cs x)) by ring.
  apply (derivable_pt_lim_plus (fun _ => c)); [apply derivable_pt_lim_const|].
  apply (derivable_pt_lim_mult (fun t => t)); [apply derivable_pt_lim_id|exact IH].
Qed.
(* derivative of hom along a path with velocities v', u' *)
Fixpoint dhom (cs : list R) (n : nat) (v u v' u' : R) : R :=
  match cs with [] => 0 | c :: cs' => c * (INR n * u ^ pred n * u') + (v' * hom cs' (pred n) v u + v * dhom cs' (pred n) v u v' u') end.
Lemma dhom_ok cs : forall n V U V' U' x, derivable_pt_lim V x V' -> derivable_pt_lim U x U' ->
  derivable_pt_lim (fun t => hom cs n (V t) (U t)) x (dhom cs n (V x) (U x) V' U').
Proof.
  induction cs as [|c cs IH]; intros n V U V' U' x HV HU; cbn [hom dhom]; [apply derivable_pt_lim_const|].
  apply (derivable_pt_lim_plus (fun t => c * U t ^ n)).
  - apply (derivable_pt_lim_scal (fun t => U t ^ n)). exact (derivable_pt_lim_comp U (fun y => y ^ n) x U' (INR n * U x ^ pred n) HU (derivable_pt_lim_pow (U x) n)).
  - exact (derivable_pt_lim_mult V (fun t => hom cs (pred n) (V t) (U t)) x V' _ HV (IH (pred n) V U V' U' x HV HU)).
Qed.
Lemma dhom_ne cs : forall n v u v' u', u <> 0 -> (length cs <= S n)%nat ->
  dhom cs n v u v' u' = u ^ pred n * (v' * dpeval cs (v / u) + u' * (INR n * peval cs (v / u) - v / u * dpeval cs (v / u))).
Proof.
  induction cs as [|c cs IH]; intros n v u v' u' Hu Hl; cbn [dhom peval dpeval]; [ring|]. cbn [length] in Hl. destruct n as [|n].
  - destruct cs; [|cbn in Hl; lia]. cbn. ring.
  - cbn [pred]. rewrite (hom_peval cs n v u Hu) by lia. rewrite (IH n v u v' u' Hu) by lia. destruct n as [|n].
    + destruct cs as [|c1 [|]]; [cbn; ring|cbn; ring|cbn in Hl; lia].
    + cbn [pred pow]. rewrite !S_INR. field. exact Hu.
Qed.
Lemma dhom_0 cs n v' u' : (length cs <= S n)%nat -> dhom cs n 0 0 v' u' = match n with 1%nat => nth 0 cs 0 * u' + nth 1 cs 0 * v' | _ => 0 end.
Proof.
  intro Hl. destruct cs as [|c cs]; [cbn; destruct n as [|[|n]]; ring|]. cbn [dhom length] in *. destruct n as [|[|n]].
  - cbn. destruct cs; [cbn; ring|cbn in Hl; lia].
  - cbn [pred pow INR nth]. destruct cs as [|c1 cs]; cbn [hom pred pow nth]; ring.
  - cbn [pred]. rewrite hom_zero by lia. cbn [pow]. ring.
Qed.

Lemma dpl_aff a b x : derivable_pt_lim (fun t => a * t + b) x a.
Proof.
  pose proof (derivable_pt_lim_plus (fun t => a * t) (fun _ => b) x _ _ (derivable_pt_lim_scal (fun t => t) a x _ (derivable_pt_lim_id x)) (derivable_pt_lim_const b x)) as H.
  replace (a * 1 + 0) with a in H by ring. exact H.
Qed.

Section Basis.
Variable G : R -> R.
Hypothesis HG : gamma_like G.
Local Notation E := (exact G).
Local Notation P := (jac G 0 0).
Local Notation al i := (2 * INR i + 1).
Local Notation Q i := (jac G (al i) 0).

Lemma al_ok i : -1 < al i /\ -1 < 0 /\ al i + 0 <> -1.
Proof. pose proof (pos_INR i). lra. Qed.

(* the collapsed numerator and denominator *)
Definition cu (s : R) : R := 1 - s.
Definition cv (r s : R) : R := 2 * (1 + r) - (1 - s).
(* u^i P_i(v/u) *)
Definition Hf (i : nat) (v u : R) : R := if Req_EM_T u 0 then v ^ i / nrm G 0 0 i else u ^ i * P i (v / u).
Definition sb (i j : nat) (r s : R) : R := sqrt 2 * Hf i (cv r s) (cu s) * Q i j s.

Lemma P_poly i : exists cs, length cs = S i /\ nth i cs 0 = / nrm G 0 0 i /\ (forall x, P i x = peval cs x) /\ (forall x, gjac G 0 0 i x = dpeval cs x).
Proof.
  destruct (mon_poly 0 0 i) as (cs & L & T & H). exists (pscal (/ nrm G 0 0 i) cs).
  assert (HP : forall x, P i x = peval (pscal (/ nrm G 0 0 i) cs) x) by (intro x; rewrite pscal_eval, <- H; unfold jac, Rdiv; ring).
  split; [rewrite pscal_len; exact L|]. split; [rewrite pscal_nth, T; ring|]. split; [exact HP|].
  intro x. apply (uniqueness_limite (P i) x); [apply gjac_deriv; auto; lra|]. eapply dpl_ext; [|apply dpeval_ok]. intro; symmetry; apply HP.
Qed.
Lemma Hf_hom i : exists cs, length cs = S i /\ nth i cs 0 = / nrm G 0 0 i /\ (forall x, P i x = peval cs x) /\ (forall x, gjac G 0 0 i x = dpeval cs x) /\
  forall v u, Hf i v u = hom cs i v u.
Proof.
  destruct (P_poly i) as (cs & L & T & H & D). exists cs. split; [exact L|]. split; [exact T|]. split; [exact H|]. split; [exact D|].
  intros v u. unfold Hf. destruct (Req_EM_T u 0) as [->|Hu].
  - rewrite hom_zero by lia. rewrite T. unfold Rdiv. ring.
  - rewrite hom_peval by (auto; lia). now rewrite H.
Qed.
Lemma Q_poly i j : exists cs, length cs = S j /\ forall x, Q i j x = peval cs x.
Proof.
  destruct (mon_poly (al i) 0 j) as (cs & L & T & H). exists (pscal (/ nrm G (al i) 0 j) cs). split; [rewrite pscal_len; exact L|].
  intro x. rewrite pscal_eval, <- H. unfold jac, Rdiv. ring.
Qed.
Lemma tpoly_cu : tpoly 1 (fun _ s => cu s).
Proof.
  eapply tpoly_ext; [|apply (tpoly_plus 1 (fun _ _ => 1) (fun _ s => -1 * s)); [eapply tpoly_le; [|apply tpoly_const]; lia|apply tpoly_scal, tpoly_s]].
  intros. unfold cu. cbv beta. ring.
Qed.
Lemma tpoly_cv : tpoly 1 cv.
Proof.
  eapply tpoly_ext; [|apply (tpoly_plus 1 (fun r s => 2 * r + 1 * s) (fun _ _ => 1)); [apply (tpoly_plus 1 (fun r _ => 2 * r) (fun _ s => 1 * s)); apply tpoly_scal; [apply tpoly_r|apply tpoly_s]|eapply tpoly_le; [|apply tpoly_const]; lia]].
  intros. unfold cv. cbv beta. ring.
Qed.
Lemma tpoly_hom cs : forall n, (length cs <= S n)%nat -> tpoly n (fun r s => hom cs n (cv r s) (cu s)).
Proof.
  induction cs as [|c cs IH]; intros n Hl; cbn [hom].
  - eapply tpoly_le; [|apply (tpoly_const 0)]. lia.
  - cbn [length] in Hl. apply tpoly_plus.
    + apply tpoly_scal. eapply tpoly_le; [|apply (tpoly_pow 1 (fun _ s => cu s) n tpoly_cu)]. lia.
    + destruct n as [|n].
      * destruct cs; [|cbn in Hl; lia]. cbn [hom]. eapply tpoly_ext; [|apply (tpoly_const 0)]. intros; cbn; ring.
      * cbn [pred]. apply (tpoly_mul 1 n cv); [apply tpoly_cv|]. apply IH. lia.
Qed.
Lemma sb_poly i j : tpoly (i + j) (sb i j).
Proof.
  unfold sb. destruct (Hf_hom i) as (cs & L & _ & _ & _ & H). destruct (Q_poly i j) as (ds & L' & H').
  eapply tpoly_ext; [|apply (tpoly_mul i j (fun r s => sqrt 2 * hom cs i (cv r s) (cu s)) (fun _ s => peval ds s)); [apply tpoly_scal, tpoly_hom; lia|]].
  - intros r s. cbv beta. rewrite H, H'. reflexivity.
  - eapply tpoly_le; [|apply (tpoly_peval 1 (fun _ s => s) ds j tpoly_s); lia]. lia.
Qed.

(* ---- what the code computes at one point ---- *)
Lemma al_E i : fadd E (fmul E (fofn E 2) (fofn E i)) (fofn E 1) = al i.
Proof. rewrite !fofn_INR. cbn [exact fadd fmul]. simpl (INR 2). simpl (INR 1). ring. Qed.
Lemma half_E : fhalf E = / 2.
Proof. unfold fhalf. rewrite !fofn_INR. cbn [exact fdiv]. simpl (INR 2). simpl (INR 1). field. Qed.
Definition ra (r s : R) : R := if Req_EM_T s 1 then -1 else 2 * (1 + r) / (1 - s) - 1.
Lemma rsToab1_E r s : rsToab1 E r s = ra r s.
Proof.
  unfold rsToab1, ra. rewrite !fofn_INR. cbn [exact feq fadd fsub fmul fdiv fopp]. unfold Reqb. simpl (INR 2). simpl (INR 1).
  destruct (Req_EM_T s 1); cbn [negb]; [ring|reflexivity].
Qed.
Lemma ra_ne r s : s <> 1 -> ra r s = cv r s / cu s.
Proof. intro H. unfold ra, cv, cu. destruct (Req_EM_T s 1); [contradiction|]. field. lra. Qed.

Definition gr (i j : nat) (a b : R) : R := Rpower 2 (INR i + / 2) * (gjac G 0 0 i a * Q i j b * (if (1 <? i)%nat then (/ 2 * (1 - b)) ^ (i - 1) else 1)).
Definition gs (i j : nat) (a b : R) : R := Rpower 2 (INR i + / 2) *
  (gjac G 0 0 i a * (Q i j b * (/ 2 * (1 + a))) * (if (1 <? i)%nat then (/ 2 * (1 - b)) ^ (i - 1) else 1) +
   P i a * (gjac G (al i) 0 j b * (/ 2 * (1 - b)) ^ i - (if (0 <? i)%nat then / 2 * INR i * Q i j b * (/ 2 * (1 - b)) ^ (i - 1) else 0))).
Lemma pow2half i : Rpower 2 (INR i + / 2) = 2 ^ i * sqrt 2.
Proof. rewrite Rpower_plus, Rpower_pow, Rpower_sqrt by lra. reflexivity. Qed.

Lemma sb_value i j r s : in_domain r s -> sqrt 2 * P i (ra r s) * Q i j s * (1 - s) ^ i = sb i j r s.
Proof.
  intro Hd. unfold sb, Hf. destruct (Req_EM_T (cu s) 0) as [Hu|Hu].
  - unfold cu in Hu. assert (s = 1) by lra. subst s. destruct Hd as [Hd|Hd]; [lra|]. subst r. unfold ra. destruct (Req_EM_T 1 1); [|lra].
    replace (cv (-1) 1) with 0 by (unfold cv; ring). replace (1 - 1) with 0 by ring. destruct i as [|i]; [|cbn [pow]; unfold Rdiv; ring].
    cbn [pow]. unfold jac at 1. rewrite mon0. ring.
  - assert (s <> 1) by (unfold cu in Hu; lra). rewrite ra_ne by assumption. unfold cu. ring.
Qed.

Lemma P_deriv_const cs x : (length cs <= 1)%nat -> dpeval cs x = 0.
Proof. intro H. destruct cs as [|? [|]]; cbn in *; [reflexivity|ring|lia]. Qed.

Lemma sb_dr i j r s : in_domain r s -> dr_is (sb i j) r s (gr i j (ra r s) s).
Proof.
  intro Hd. destruct (Hf_hom i) as (cs & L & T & HP & HD & HH). unfold dr_is.
  assert (D : derivable_pt_lim (fun t => Q i j s * sqrt 2 * hom cs i (cv t s) (cu s)) r (Q i j s * sqrt 2 * dhom cs i (cv r s) (cu s) 2 0)).
  { apply (derivable_pt_lim_scal (fun t => hom cs i (cv t s) (cu s))). apply (dhom_ok cs i (fun t => cv t s) (fun _ => cu s)).
    - unfold cv. apply (dpl_ext (fun t => 2 * t + (2 - (1 - s)))); [intro; ring|]. apply dpl_aff.
    - apply derivable_pt_lim_const. }
  replace (gr i j (ra r s) s) with (Q i j s * sqrt 2 * dhom cs i (cv r s) (cu s) 2 0).
  { eapply dpl_ext; [|exact D]. intro t. unfold sb. rewrite HH. cbv beta. ring. }
  unfold gr. rewrite pow2half, HD. destruct (Req_EM_T s 1) as [->|Hs].
  - destruct Hd as [Hd|Hd]; [lra|]. subst r. unfold ra. destruct (Req_EM_T 1 1); [|lra]. replace (cv (-1) 1) with 0 by (unfold cv; ring). replace (cu 1) with 0 by (unfold cu; ring).
    rewrite dhom_0 by lia. destruct i as [|[|i]].
    + rewrite P_deriv_const by lia. ring.
    + destruct cs as [|c0 [|c1 [|]]]; try discriminate. cbn. ring.
    + cbn [Nat.ltb Nat.leb Nat.sub pow]. replace (1 - 1) with 0 by ring. ring.
  - rewrite ra_ne by exact Hs. rewrite dhom_ne by (first [lia | unfold cu; lra]). fold (cu s). destruct i as [|[|i]].
    + rewrite P_deriv_const by lia. cbn. ring.
    + cbn. ring.
    + cbn [Nat.ltb Nat.leb Nat.sub pred]. rewrite Rpow_mult_distr, pow_inv. cbn [pow]. field. first [apply pow_nonzero; lra | split; [apply pow_nonzero; lra | unfold cu; lra]].
Qed.

Lemma sb_ds i j r s : in_domain r s -> ds_is (sb i j) r s (gs i j (ra r s) s).
Proof.
  intro Hd. destruct (Hf_hom i) as (cs & L & T & HP & HD & HH). unfold ds_is.
  assert (DQ : derivable_pt_lim (Q i j) s (gjac G (al i) 0 j s)) by (destruct (al_ok i) as (A1 & A2 & A3); apply gjac_deriv; auto).
  assert (D : derivable_pt_lim (fun t => sqrt 2 * (hom cs i (cv r t) (cu t) * Q i j t)) s
     (sqrt 2 * (dhom cs i (cv r s) (cu s) 1 (-1) * Q i j s + hom cs i (cv r s) (cu s) * gjac G (al i) 0 j s))).
  { apply (derivable_pt_lim_scal (fun t => hom cs i (cv r t) (cu t) * Q i j t)). apply (derivable_pt_lim_mult (fun t => hom cs i (cv r t) (cu t))); [|exact DQ].
    apply (dhom_ok cs i (fun t => cv r t) cu).
    - unfold cv. apply (dpl_ext (fun t => 1 * t + (2 * (1 + r) - 1))); [intro; ring|]. apply dpl_aff.
    - unfold cu. apply (dpl_ext (fun t => -1 * t + 1)); [intro; ring|]. apply dpl_aff. }
  match type of D with derivable_pt_lim _ _ ?w => replace (gs i j (ra r s) s) with w end.
  { eapply dpl_ext; [|exact D]. intro t. unfold sb. rewrite HH. cbv beta. ring. }
  unfold gs. rewrite pow2half, HD, HP. destruct (Req_EM_T s 1) as [->|Hs].
  - destruct Hd as [Hd|Hd]; [lra|]. subst r. unfold ra. destruct (Req_EM_T 1 1); [|lra]. replace (cv (-1) 1) with 0 by (unfold cv; ring). replace (cu 1) with 0 by (unfold cu; ring).
    rewrite dhom_0, hom_zero by lia. destruct i as [|[|i]].
    + rewrite P_deriv_const by lia. destruct cs as [|c0 [|]]; try discriminate. cbn. ring.
    + destruct cs as [|c0 [|c1 [|]]]; try discriminate. cbn. field.
    + cbn [Nat.ltb Nat.leb Nat.sub pow]. replace (1 - 1) with 0 by ring. ring.
  - rewrite ra_ne by exact Hs. rewrite dhom_ne, hom_peval by (first [lia | unfold cu; lra]). fold (cu s). destruct i as [|[|i]].
    + rewrite P_deriv_const by lia. cbn. ring.
    + cbn. field. unfold cu; lra.
    + cbn [Nat.ltb Nat.leb Nat.sub pred]. rewrite !Rpow_mult_distr, !pow_inv. cbn [pow]. field. first [apply pow_nonzero; lra | split; [apply pow_nonzero; lra | unfold cu; lra]].
Qed.
End Basis.
