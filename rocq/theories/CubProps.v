(* CubProps.v - C53: the triangle cubature rules. *)
From Coq Require Import ZArith List Lia Bool.
From Flocq Require Import Core.Core.
Require Import Flocq.Prop.Relative.
From Verif Require Import Base JacobiSpec JacobiQuadProofs TriSpec TriOpProofs CubTable CubModel CubSpec CubCheck CubProofs CubFacts CubBadProofs.
From Coq Require Import Reals Lra.
Import ListNotations.
Local Open Scope R_scope.

(* Every order from 1 to 28 except 3 and 4: as many points as promised, all inside the triangle,
   positive weights, and every polynomial of that degree integrated up to 2*10^-14 times the sum
   of the absolute values of its coefficients. *)
Theorem C53_rules : forall lit sub junk, literal_values lit ->
  forall n, (1 <= n <= 28)%nat -> n <> 3%nat -> n <> 4%nat ->
  exists rs ss ws, let N := Z.of_nat n in
    rCoord lit sub junk N = Ok rs /\ sCoord lit sub junk N = Ok ss /\ weights lit sub junk N = Ok ws /\
    NumCubaturePoints lit sub junk N = Ok (length ws) /\ length rs = length ws /\ length ss = length ws /\
    (forall i, (i < length ws)%nat -> inside (nth i rs 0) (nth i ss 0) /\ 0 < nth i ws 0) /\
    (forall p, degree2 n p -> exists v, triangle_integral (bary p) v /\
       Rabs (rule_sum rs ss ws (bary p) - v) <= 2 / 100000000000000 * coefsum p).
Proof.
  intros lit sub junk Hl n Hn H3 H4. destruct (order_entry n Hn H3 H4) as (e & Et & Eo).
  assert (Sh : shape_ok e = true) by (unfold entry_ok in Eo; rewrite !andb_true_iff in Eo; tauto).
  assert (Ok' : forallb row_ok (triples (map cell_num (snd e))) = true) by (unfold entry_ok in Eo; rewrite !andb_true_iff in Eo; tauto).
  destruct (columns_ok lit sub junk e Sh) as (Ln & C0 & C1 & C2). pose proof (entry_exact lit n e _ Hl Eo ltac:(lia)) as Ex. cbv zeta in Ex.
  set (t := triples (map cell_num (snd e))) in *.
  exists (map (fun x => lit (rR x)) t), (map (fun x => lit (rS x)) t), (map (fun x => lit (rW x)) t). cbv zeta.
  unfold rCoord, sCoord, weights, NumCubaturePoints. rewrite (the_rule_ok lit sub junk n e ltac:(lia) Et). cbn [bind]. rewrite !map_length.
  split; [exact C0|]. split; [exact C1|]. split; [exact C2|]. split; [change (nrows (mk_rule lit sub junk e)) with (fst e); congruence|].
  split; [reflexivity|]. split; [reflexivity|].
  assert (Nth : forall f i, (i < length t)%nat -> nth i (map (fun x : Z * Z * Z => lit (f x)) t) 0 = lit (f (nth i t (0, 0, 0)%Z))).
  { intros f i Hi. rewrite (nth_indep _ 0 ((fun x => lit (f x)) (0, 0, 0)%Z)) by (rewrite map_length; exact Hi). apply (map_nth (fun x => lit (f x))). }
  split.
  - intros i Hi. rewrite !Nth by exact Hi. rewrite forallb_forall in Ok'. destruct (row_lits lit (nth i t (0, 0, 0)%Z) Hl) as (A & B & _); [apply Ok', nth_In, Hi|]. split; assumption.
  - intros p Hp. destruct (Ex p Hp) as (v & Iv & Bv). exists v. split; [exact Iv|]. unfold rule_sum. rewrite map_length.
    rewrite (lsum_sumn _ t (0, 0, 0)%Z) in Bv. erewrite sumn_ext; [exact Bv|]. intros i Hi. cbv beta. rewrite !Nth by exact Hi. reflexivity.
Qed.

(* The literals of a double program are such values: decimal numbers rounded to the nearest double. *)
Definition double_literal (z : Z) : R := round radix2 (FLT_exp (-1074) 53) ZnearestE (IZR z / 1000000000000000).
Theorem C53_double_literals : literal_values double_literal.
Proof.
  intros z _. unfold double_literal. destruct (Z.eq_dec z 0) as [->|Nz].
  - unfold Rdiv. rewrite Rmult_0_l, round_0 by typeclasses eauto. rewrite Rminus_0_r, Rabs_R0. lra.
  - assert (Z1 : 1 <= Rabs (IZR z)). { rewrite <- abs_IZR. apply IZR_le. lia. }
    pose proof (relative_error_N_FLT radix2 (-1074) 53 ltac:(lia) (fun x => negb (Z.even x)) (IZR z / 1000000000000000)) as H.
    refine (Rle_trans _ _ _ (H _) _).
    + change (-1074 + 53 - 1)%Z with (-1022)%Z. unfold Rdiv. rewrite Rabs_mult. rewrite (Rabs_right (/ 1000000000000000)) by lra.
      apply Rle_trans with (bpow radix2 (-50)); [apply bpow_le; lia|]. change (bpow radix2 (-50)) with (/ 1125899906842624). lra.
    + right. rewrite Rmult_comm. f_equal. change (bpow radix2 (- (53) + 1)) with (/ 4503599627370496). replace (2 ^ 53) with 9007199254740992 by (cbn; ring). lra.
Qed.

(* Orders outside 1..28 read past the list of rules. *)
Theorem C53_range : forall A (lit : Z -> A) sub junk n, (n < 1 \/ 28 < n)%Z ->
  rCoord lit sub junk n = UB /\ sCoord lit sub junk n = UB /\ weights lit sub junk n = UB /\ NumCubaturePoints lit sub junk n = UB.
Proof. intros A lit sub junk n H. unfold rCoord, sCoord, weights, NumCubaturePoints. rewrite (the_rule_out lit sub junk n H). repeat split; reflexivity. Qed.

(* Orders 3 and 4: whatever the uninitialised storage holds, a weight is negative, a point lies
   outside the triangle, and some monomial of degree at most 2 is integrated with an error above 1/100. *)
Theorem C53_orders_3_4_refuted : forall lit sub junk, literal_values lit -> subtracts sub -> forall n, n = 3%Z \/ n = 4%Z ->
  exists rs ss ws, rCoord lit sub junk n = Ok rs /\ sCoord lit sub junk n = Ok ss /\ weights lit sub junk n = Ok ws /\
    (exists i, (i < 6)%nat /\ nth i ws 0 < 0) /\
    (exists i, (i < 6)%nat /\ nth i rs 0 + nth i ss 0 > 1 / 2) /\
    (exists p v, degree2 2 p /\ coefsum p = 1 /\ triangle_integral (bary p) v /\ Rabs (rule_sum rs ss ws (bary p) - v) > 1 / 100).
Proof.
  intros lit sub junk Hl Hs n Hn. destruct (bad_columns lit sub junk n Hn) as (C0 & C1 & C2).
  exists (bad_r lit sub junk), (bad_s lit sub junk), (bad_w lit junk). split; [exact C0|]. split; [exact C1|]. split; [exact C2|].
  split; [|split].
  - exists 1%nat. split; [lia|]. cbn. pose proof (near lit Hl (-816847572980459) _ eq_refl ltac:(lia)) as H. unfold xd in H. lra.
  - exists 2%nat. split; [lia|]. cbn. pose proof (near lit Hl 633695145960917 _ eq_refl ltac:(lia)) as H. pose proof (near lit Hl 219903487310644 _ eq_refl ltac:(lia)) as H'. unfold xd in *. lra.
  - destruct (bad_moments lit sub junk Hl Hs) as (k & Hk & B). exists [(k, 0%nat, 1)], (mono_int k 0). split; [constructor; [cbn; lia|constructor]|].
    split; [cbn; rewrite Rabs_R1; ring|]. split; [|exact B]. eapply tint_ext; [|apply monomial_integral]. intros r s. unfold bary. cbn [eval2]. cbv beta. cbn [pow]. ring.
Qed.

(* The hypotheses are met: double literals with exact subtraction; the integral of r^2 over the
   triangle found with the 3-point rule. *)
Example C53_witness : literal_values double_literal /\ subtracts Rminus /\
  exists rs ss ws, rCoord double_literal Rminus (fun _ => 0) 2 = Ok rs /\ sCoord double_literal Rminus (fun _ => 0) 2 = Ok ss /\
    weights double_literal Rminus (fun _ => 0) 2 = Ok ws /\ length ws = 3%nat /\
    exists v, triangle_integral (bary [(2%nat, 0%nat, 4); (1%nat, 0%nat, -4); (0%nat, 0%nat, 1)]) v /\
      Rabs (rule_sum rs ss ws (bary [(2%nat, 0%nat, 4); (1%nat, 0%nat, -4); (0%nat, 0%nat, 1)]) - v) <= 18 / 100000000000000.
Proof.
  split; [apply C53_double_literals|]. split; [intros a b _ _; rewrite Rminus_diag_eq, Rabs_R0 by reflexivity; lra|].
  destruct (C53_rules double_literal Rminus (fun _ => 0) C53_double_literals 2 ltac:(lia) ltac:(lia) ltac:(lia)) as (rs & ss & ws & A & B & C & D & E & F & G & H).
  exists rs, ss, ws. split; [exact A|]. split; [exact B|]. split; [exact C|]. split; [assert (D3 : NumCubaturePoints double_literal Rminus (fun _ => 0) (Z.of_nat 2) = Ok 3%nat) by (unfold NumCubaturePoints; rewrite (the_rule_ok double_literal Rminus (fun _ => 0) 2 (3%nat, table1)) by (lia || reflexivity); reflexivity); congruence|].
  destruct (H [(2%nat, 0%nat, 4); (1%nat, 0%nat, -4); (0%nat, 0%nat, 1)]) as (v & I & J); [repeat constructor|]. exists v. split; [exact I|].
  eapply Rle_trans; [exact J|]. unfold coefsum. cbn [fold_right snd]. rewrite (Rabs_right 4), (Rabs_left (-4)), (Rabs_right 1) by lra. lra.
Qed.

Print Assumptions C53_rules.
Print Assumptions C53_double_literals.
Print Assumptions C53_range.
Print Assumptions C53_orders_3_4_refuted.
