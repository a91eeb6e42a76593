(* CubBadProofs.v - the rules for orders 3 and 4, whose initialiser misses commas. *)
From Coq Require Import ZArith List Lia Bool.
From Verif Require Import Base JacobiSpec JacobiQuadProofs TriSpec TriOpProofs CubTable CubModel CubSpec CubCheck CubProofs.
From Coq Require Import Reals Lra.
Import ListNotations.
Local Open Scope R_scope.

Section Bad.
Context (lit : Z -> R) (sub : R -> R -> R) (junk : nat -> R) (Hl : literal_values lit) (Hs : subtracts sub).
Let D1 := sub (lit 633695145960917) (lit 816847572980459).
Let D2 := sub (lit 446763179356023) (lit 783793963663860).
Let D3 := sub (lit 446763179356023) (lit 108103018168070).
Definition bad_r := [lit (-816847572980458); D1; lit 633695145960917; lit (-108103018168070); D3; junk 15].
Definition bad_s := [lit (-816847572980458); lit 219903487310644; lit 219903487310644; D2; lit (-783793963663860); junk 16].
Definition bad_w := [lit 219903487310644; lit (-816847572980459); lit (-108103018168070); lit (-108103018168070); lit 446763179356023; junk 17].

Lemma bad_columns n : n = 3%Z \/ n = 4%Z ->
  rCoord lit sub junk n = Ok bad_r /\ sCoord lit sub junk n = Ok bad_s /\ weights lit sub junk n = Ok bad_w.
Proof.
  intros H. assert (T : the_rule lit sub junk n = Ok (mk_rule lit sub junk (6%nat, table2))).
  { destruct H as [-> | ->]; [apply (the_rule_ok lit sub junk 3)|apply (the_rule_ok lit sub junk 4)]; try lia; reflexivity. }
  unfold rCoord, sCoord, weights. rewrite T. repeat split; reflexivity.
Qed.

Lemma near (z : Z) (x : R) : x = xd z -> (Z.abs z <= 1000000000000000)%Z -> x - 1 / 1000000000 <= lit z <= x + 1 / 1000000000.
Proof.
  intros -> Hz. pose proof (lit_near lit z Hl ltac:(lia)) as H. assert (B : Rabs (xd z) <= 1).
  { assert (A : (- 1000000000000000 <= z <= 1000000000000000)%Z) by lia. destruct A as [A1 A2]. apply IZR_le in A1, A2. unfold xd. apply Rabs_le. lra. }
  assert (C : Rabs (lit z - xd z) <= 1 / 1000000000) by lra. apply Rabs_le_inv in C. lra.
Qed.

Lemma near_sub (z1 z2 : Z) (x : R) : x = xd z1 - xd z2 -> (Z.abs z1 <= 1000000000000000)%Z -> (Z.abs z2 <= 1000000000000000)%Z ->
  x - 3 / 1000000000 <= sub (lit z1) (lit z2) <= x + 3 / 1000000000.
Proof.
  intros -> H1 H2. pose proof (near z1 _ eq_refl H1) as A. pose proof (near z2 _ eq_refl H2) as B.
  assert (forall z, (Z.abs z <= 1000000000000000)%Z -> -1 <= xd z <= 1).
  { intros z Hz. assert (C : (- 1000000000000000 <= z <= 1000000000000000)%Z) by lia. destruct C as [C1 C2]. apply IZR_le in C1, C2. unfold xd. lra. }
  pose proof (H z1 H1). pose proof (H z2 H2).
  specialize (Hs (lit z1) (lit z2) ltac:(apply Rabs_le; lra) ltac:(apply Rabs_le; lra)). apply Rabs_le_inv in Hs. lra.
Qed.

Lemma prod_near a b a0 b0 : Rabs a0 <= 1 -> Rabs b0 <= 1 -> a0 - 3 / 1000000000 <= a <= a0 + 3 / 1000000000 -> b0 - 3 / 1000000000 <= b <= b0 + 3 / 1000000000 ->
  a0 * b0 - 9 / 1000000000 <= a * b <= a0 * b0 + 9 / 1000000000.
Proof.
  intros A B HA HB. assert (E : Rabs (a * b - a0 * b0) <= 9 / 1000000000); [|apply Rabs_le_inv in E; lra].
  replace (a * b - a0 * b0) with ((a - a0) * b + a0 * (b - b0)) by ring. eapply Rle_trans; [apply Rabs_triang|]. rewrite !Rabs_mult.
  assert (Rabs (a - a0) <= 3 / 1000000000) by (apply Rabs_le; lra). assert (Rabs (b - b0) <= 3 / 1000000000) by (apply Rabs_le; lra).
  assert (Rabs b <= 2). { apply Rabs_le_inv in B. apply Rabs_le. lra. }
  pose proof (Rabs_pos (a - a0)). pose proof (Rabs_pos (b - b0)). pose proof (Rabs_pos a0). pose proof (Rabs_pos b). nra.
Qed.

Let mono (k : nat) : poly2 := [(k, 0%nat, 1)].
Lemma bad_sum k : rule_sum bad_r bad_s bad_w (bary (mono k)) =
  lit 219903487310644 * ((1 + lit (-816847572980458)) / 2) ^ k + lit (-816847572980459) * ((1 + D1) / 2) ^ k + lit (-108103018168070) * ((1 + lit 633695145960917) / 2) ^ k
  + lit (-108103018168070) * ((1 + lit (-108103018168070)) / 2) ^ k + lit 446763179356023 * ((1 + D3) / 2) ^ k + junk 17 * ((1 + junk 15) / 2) ^ k.
Proof. unfold rule_sum, sumn, bary. cbn. ring. Qed.

Lemma bad_moments : exists k, (k <= 2)%nat /\ Rabs (rule_sum bad_r bad_s bad_w (bary (mono k)) - mono_int k 0) > 1 / 100.
Proof.
  destruct (Rle_dec (Rabs (rule_sum bad_r bad_s bad_w (bary (mono 0)) - mono_int 0 0)) (1 / 100)) as [A0|N]; [|exists 0%nat; split; [lia|lra]].
  destruct (Rle_dec (Rabs (rule_sum bad_r bad_s bad_w (bary (mono 1)) - mono_int 1 0)) (1 / 100)) as [A1|N]; [|exists 1%nat; split; [lia|lra]].
  destruct (Rle_dec (Rabs (rule_sum bad_r bad_s bad_w (bary (mono 2)) - mono_int 2 0)) (1 / 100)) as [A2|N]; [|exists 2%nat; split; [lia|lra]].
  exfalso. rewrite bad_sum in A0, A1, A2.
  replace (mono_int 0 0) with 2 in A0 by (unfold mono_int; cbn; field). replace (mono_int 1 0) with (2 / 3) in A1 by (unfold mono_int; cbn; field).
  replace (mono_int 2 0) with (1 / 3) in A2 by (unfold mono_int; cbn; field). cbn [pow] in A0, A1, A2. rewrite ?Rmult_1_r in A0, A1, A2.
  assert (W0 : 219903487310644 / 1000000000000000 - 1 / 1000000000 <= lit 219903487310644 <= 219903487310644 / 1000000000000000 + 1 / 1000000000) by (apply near; [reflexivity|lia]).
  assert (W1 : -816847572980459 / 1000000000000000 - 1 / 1000000000 <= lit (-816847572980459) <= -816847572980459 / 1000000000000000 + 1 / 1000000000) by (apply near; [reflexivity|lia]).
  assert (W2 : -108103018168070 / 1000000000000000 - 1 / 1000000000 <= lit (-108103018168070) <= -108103018168070 / 1000000000000000 + 1 / 1000000000) by (apply near; [reflexivity|lia]).
  assert (W4 : 446763179356023 / 1000000000000000 - 1 / 1000000000 <= lit 446763179356023 <= 446763179356023 / 1000000000000000 + 1 / 1000000000) by (apply near; [reflexivity|lia]).
  assert (R0 : -816847572980458 / 1000000000000000 - 1 / 1000000000 <= lit (-816847572980458) <= -816847572980458 / 1000000000000000 + 1 / 1000000000) by (apply near; [reflexivity|lia]).
  assert (R2 : 633695145960917 / 1000000000000000 - 1 / 1000000000 <= lit 633695145960917 <= 633695145960917 / 1000000000000000 + 1 / 1000000000) by (apply near; [reflexivity|lia]).
  assert (R1 : -183152427019542 / 1000000000000000 - 3 / 1000000000 <= D1 <= -183152427019542 / 1000000000000000 + 3 / 1000000000) by (apply near_sub; [unfold xd; lra|lia|lia]).
  assert (R4 : 338660161187953 / 1000000000000000 - 3 / 1000000000 <= D3 <= 338660161187953 / 1000000000000000 + 3 / 1000000000) by (apply near_sub; [unfold xd; lra|lia|lia]).
  set (w0 := lit 219903487310644) in *. set (w1 := lit (-816847572980459)) in *. set (w2 := lit (-108103018168070)) in *. set (w4 := lit 446763179356023) in *.
  set (u0 := (1 + lit (-816847572980458)) / 2) in *. set (u1 := (1 + D1) / 2) in *. set (u2 := (1 + lit 633695145960917) / 2) in *.
  set (u3 := (1 + w2) / 2) in *. set (u4 := (1 + D3) / 2) in *. set (x := (1 + junk 15) / 2) in *. set (w := junk 17) in *.
  assert (U0 : 9157621 / 100000000 - 1 / 10000000 <= u0 <= 9157621 / 100000000 + 1 / 10000000) by (unfold u0; lra).
  assert (U1 : 40842379 / 100000000 - 1 / 10000000 <= u1 <= 40842379 / 100000000 + 1 / 10000000) by (unfold u1; lra).
  assert (U2 : 81684757 / 100000000 - 1 / 10000000 <= u2 <= 81684757 / 100000000 + 1 / 10000000) by (unfold u2; lra).
  assert (U3 : 44594849 / 100000000 - 1 / 10000000 <= u3 <= 44594849 / 100000000 + 1 / 10000000) by (unfold u3; lra).
  assert (U4 : 66933008 / 100000000 - 1 / 10000000 <= u4 <= 66933008 / 100000000 + 1 / 10000000) by (unfold u4; lra).
  clearbody w0 w1 w2 w4 u0 u1 u2 u3 u4 x w. clear R0 R1 R2 R4.
  assert (G : forall a b a0 b0, a0 - 1 / 1000000 <= a <= a0 + 1 / 1000000 -> b0 - 1 / 1000000 <= b <= b0 + 1 / 1000000 -> Rabs a0 <= 1 -> Rabs b0 <= 1 ->
    a0 * b0 - 3 / 1000000 <= a * b <= a0 * b0 + 3 / 1000000).
  { clear. intros a b a0 b0 HA HB A B. assert (E : Rabs (a * b - a0 * b0) <= 3 / 1000000); [|apply Rabs_le_inv in E; lra].
    replace (a * b - a0 * b0) with ((a - a0) * b + a0 * (b - b0)) by ring. eapply Rle_trans; [apply Rabs_triang|]. rewrite !Rabs_mult.
    assert (Rabs (a - a0) <= 1 / 1000000) by (apply Rabs_le; lra). assert (Rabs (b - b0) <= 1 / 1000000) by (apply Rabs_le; lra).
    assert (Rabs b <= 2). { apply Rabs_le_inv in B. apply Rabs_le. lra. }
    pose proof (Rabs_pos (a - a0)). pose proof (Rabs_pos (b - b0)). pose proof (Rabs_pos a0). pose proof (Rabs_pos b). nra. }
  assert (P0 := G w0 u0 (219903487 / 1000000000) (9157621 / 100000000) ltac:(lra) ltac:(lra) ltac:(apply Rabs_le; lra) ltac:(apply Rabs_le; lra)).
  assert (P1 := G w1 u1 (-816847573 / 1000000000) (40842379 / 100000000) ltac:(lra) ltac:(lra) ltac:(apply Rabs_le; lra) ltac:(apply Rabs_le; lra)).
  assert (P2 := G w2 u2 (-108103018 / 1000000000) (81684757 / 100000000) ltac:(lra) ltac:(lra) ltac:(apply Rabs_le; lra) ltac:(apply Rabs_le; lra)).
  assert (P3 := G w2 u3 (-108103018 / 1000000000) (44594849 / 100000000) ltac:(lra) ltac:(lra) ltac:(apply Rabs_le; lra) ltac:(apply Rabs_le; lra)).
  assert (P4 := G w4 u4 (446763179 / 1000000000) (66933008 / 100000000) ltac:(lra) ltac:(lra) ltac:(apply Rabs_le; lra) ltac:(apply Rabs_le; lra)).
  assert (G2 : forall a b a0 b0, a0 - 4 / 1000000 <= a <= a0 + 4 / 1000000 -> b0 - 4 / 1000000 <= b <= b0 + 4 / 1000000 -> Rabs a0 <= 1 -> Rabs b0 <= 1 ->
    a0 * b0 - 12 / 1000000 <= a * b <= a0 * b0 + 12 / 1000000).
  { clear. intros a b a0 b0 HA HB A B. assert (E : Rabs (a * b - a0 * b0) <= 12 / 1000000); [|apply Rabs_le_inv in E; lra].
    replace (a * b - a0 * b0) with ((a - a0) * b + a0 * (b - b0)) by ring. eapply Rle_trans; [apply Rabs_triang|]. rewrite !Rabs_mult.
    assert (Rabs (a - a0) <= 4 / 1000000) by (apply Rabs_le; lra). assert (Rabs (b - b0) <= 4 / 1000000) by (apply Rabs_le; lra).
    assert (Rabs b <= 2). { apply Rabs_le_inv in B. apply Rabs_le. lra. }
    pose proof (Rabs_pos (a - a0)). pose proof (Rabs_pos (b - b0)). pose proof (Rabs_pos a0). pose proof (Rabs_pos b). nra. }
  assert (Q0 := G2 (w0 * u0) u0 (20138 / 1000000) (9157621 / 100000000) ltac:(lra) ltac:(lra) ltac:(apply Rabs_le; lra) ltac:(apply Rabs_le; lra)).
  assert (Q1 := G2 (w1 * u1) u1 (-333620 / 1000000) (40842379 / 100000000) ltac:(lra) ltac:(lra) ltac:(apply Rabs_le; lra) ltac:(apply Rabs_le; lra)).
  assert (Q2 := G2 (w2 * u2) u2 (-88304 / 1000000) (81684757 / 100000000) ltac:(lra) ltac:(lra) ltac:(apply Rabs_le; lra) ltac:(apply Rabs_le; lra)).
  assert (Q3 := G2 (w2 * u3) u3 (-48208 / 1000000) (44594849 / 100000000) ltac:(lra) ltac:(lra) ltac:(apply Rabs_le; lra) ltac:(apply Rabs_le; lra)).
  assert (Q4 := G2 (w4 * u4) u4 (299032 / 1000000) (66933008 / 100000000) ltac:(lra) ltac:(lra) ltac:(apply Rabs_le; lra) ltac:(apply Rabs_le; lra)).
  apply Rabs_le_inv in A0, A1, A2. rewrite <- !Rmult_assoc in A2.
  assert (Z0 : 235 / 100 <= w) by lra.
  assert (Z1 : 0 <= w * x <= 83 / 100) by lra.
  assert (Z2 : 35 / 100 <= w * x * x) by lra.
  assert (w * (w * x * x) = (w * x) * (w * x)) by ring. nra.
Qed.
End Bad.
