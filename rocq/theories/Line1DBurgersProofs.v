(* Line1DBurgersProofs.v - lemmas about the Burgers right-hand side. *)
From Coq Require Import ZArith List Lia Bool Arith.
From Verif Require Import Base Loops Num BlitzModel BlitzSpec BlitzProofs JacobiModel JacobiSpec JacobiProofs JacobiOrthProofs JacobiQuadProofs JacobiExactProofs
  DenseSpec CscModel MeshModel Nodes1DModel Nodes1DSpec Nodes1DProofs Nodes1DExactProofs Nodes1DProps RKModel Line1DModel Line1DSpec TriBasisProofs Line1DProofs.
From Coq Require Import Reals Lra.
Import ListNotations.
Local Open Scope R_scope.

Section Burgers.
Variable G : R -> R.
Local Notation E := (exact G).
Variables (junk : nat -> nat -> R) (junkv : nat -> R) (ftanh : R -> R) (lowest : R) (n : @nodes1d R) (J rx Fs : mat R) (Np K : nat) (w : R).
Hypothesis LT : line_tables n J rx Fs Np K w.
Local Notation r := (n_r n).

(* the running maximum *)
Lemma max_abs_ge u l : forall m0 M, M = fold_left (fun m ij => let v := fabs E (ment u (fst ij) (snd ij)) in if flt E m v then v else m) l m0 ->
  m0 <= M /\ (forall i k, In (i, k) l -> Rabs (ment u i k) <= M) /\ (M = m0 \/ exists i k, In (i, k) l /\ M = Rabs (ment u i k)).
Proof.
  induction l as [|(i0, k0) l IH]; intros m0 M HM; cbn [fold_left] in HM; [split; [lra|split; [intros ? ? []|left; exact HM]]|].
  apply IH in HM. cbn [fst snd exact flt fabs] in HM. unfold Rltb in HM. destruct HM as (H1 & H2 & H3).
  assert (Hm : m0 <= M /\ Rabs (ment u i0 k0) <= M) by (destruct (Rlt_dec m0 (Rabs (ment u i0 k0))); cbv iota in H1; lra).
  split; [apply Hm|]. split.
  - intros i k [Heq | HIn]; [injection Heq as <- <-; apply Hm|apply H2; exact HIn].
  - destruct H3 as [H3 | (i & k & HIn & H3)]; [|right; exists i, k; split; [right; exact HIn|exact H3]].
    destruct (Rlt_dec m0 (Rabs (ment u i0 k0))); cbv iota in H3.
    + right. exists i0, k0. split; [left; reflexivity|exact H3].
    + left. exact H3.
Qed.
Lemma max_abs_ok u : lowest < 0 -> shape u Np K -> largest_abs Np K u (max_abs E lowest u).
Proof.
  intros Hl (Ur & Uc). unfold max_abs. rewrite Ur, Uc. destruct (max_abs_ge u (list_prod (seq 0 Np) (seq 0 K)) lowest _ eq_refl) as (H1 & H2 & H3).
  pose proof (lt_Np _ _ _ _ _ _ _ LT) as HN. pose proof (lt_K _ _ _ _ _ _ _ LT) as HK. split.
  - intros i k Hi Hk. apply H2. apply in_prod; apply in_seq; lia.
  - destruct H3 as [H3 | (i & k & HIn & H3)].
    + exfalso. specialize (H2 0%nat 0%nat ltac:(apply in_prod; apply in_seq; lia)). rewrite H3 in H2. pose proof (Rabs_pos (ment u 0%nat 0%nat)). lra.
    + apply in_prod_iff in HIn. rewrite !in_seq in HIn. exists i, k. split; [lia|]. split; [lia|exact H3].
Qed.

Lemma vtx_node m U : (forall k, (k < K)%nat -> interpolates Np r m k (U k)) ->
  ment m (0 mod Np) (0 / Np) = Lv U 0 /\ ment m ((Np * K - 1) mod Np) ((Np * K - 1) / Np) = Rv U (K - 1).
Proof.
  intro HU. pose proof (lt_Np _ _ _ _ _ _ _ LT) as HN. pose proof (lt_K _ _ _ _ _ _ _ LT) as HK. split.
  - rewrite Nat.mod_small, Nat.div_small by lia. destruct (HU 0%nat HK) as (_ & H). rewrite H by lia. rewrite (lt_r0 _ _ _ _ _ _ _ LT). reflexivity.
  - replace (Np * K - 1)%nat with (Np - 1 + (K - 1) * Np)%nat by nia. rewrite Nat.mod_add, Nat.div_add by lia. rewrite Nat.mod_small, Nat.div_small by lia.
    cbn [Nat.add]. destruct (HU (K - 1)%nat ltac:(lia)) as (_ & H). rewrite H by lia. rewrite (lt_r1 _ _ _ _ _ _ _ LT). reflexivity.
Qed.

Definition du_at (uL uR : R) (U : nat -> list R) (g : nat) : R :=
  if (g =? 2 * K - 1)%nat then 2 * (Rv U (K - 1) - uR) else if (g =? 0)%nat then 2 * (Lv U 0 - uL) else side U g - side U (mate K g).
Definition dq_at (P : nat -> list R) (g : nat) : R :=
  if (g =? 0)%nat then 0 else if (g =? 2 * K - 1)%nat then 0 else 1 / 2 * (side P g - side P (mate K g)).
Definition du2_at (uL uR : R) (U : nat -> list R) (g : nat) : R :=
  if (g =? 2 * K - 1)%nat then Rv U (K - 1) * Rv U (K - 1) - uR * uR else if (g =? 0)%nat then Lv U 0 * Lv U 0 - uL * uL
  else 1 / 2 * (side U g * side U g - side U (mate K g) * side U (mate K g)).
Definition sgn (g : nat) : R := if (g mod 2 =? 0)%nat then -1 else 1.

Lemma burgers_ok x t c alpha nu u U : shape u Np K -> shape x Np K -> (forall k, (k < K)%nat -> interpolates Np r u k (U k)) ->
  let uL := Burgers2 E ftanh (ment x 0%nat 0%nat) t alpha nu c in
  let uR := Burgers2 E ftanh (ment x (Np - 1)%nat (K - 1)%nat) t alpha nu c in
  let M := max_abs E lowest u in let sn := sqrt nu in
  exists q rhs P, burgers_rhs E junk junkv ftanh lowest n rx Fs Np K x t c alpha nu u = Ok rhs /\ shape rhs Np K /\ shape q Np K /\
    (forall k, (k < K)%nat -> interpolates Np r q k (P k)) /\
    (forall i k, (i < Np)%nat -> (k < K)%nat -> ment q i k = sn * (1 / (w / 2)) * dpeval (U k) (nth i r 0) +
     (ment (n_Lift n) i 0%nat * (1 / (w / 2) * (sn * (1 / 2 * du_at uL uR U (0 + k * 2)))) +
      ment (n_Lift n) i 1%nat * (1 / (w / 2) * (- sn * (1 / 2 * du_at uL uR U (1 + k * 2)))))) /\
    forall F, (forall i k, (i < Np)%nat -> (k < K)%nat -> peval (F k) (nth i r 0) = ment u i k * ment u i k / 2 - sn * ment q i k) ->
      (forall k, (k < K)%nat -> (length (F k) <= Np)%nat) ->
    forall i k, (i < Np)%nat -> (k < K)%nat -> ment rhs i k = - 1 * (1 / (w / 2)) * dpeval (F k) (nth i r 0) +
     (ment (n_Lift n) i 0%nat * (1 / (w / 2) * (sgn (0 + k * 2) * (1 / 2 * du2_at uL uR U (0 + k * 2) - sn * dq_at P (0 + k * 2)) - M / 2 * du_at uL uR U (0 + k * 2))) +
      ment (n_Lift n) i 1%nat * (1 / (w / 2) * (sgn (1 + k * 2) * (1 / 2 * du2_at uL uR U (1 + k * 2) - sn * dq_at P (1 + k * 2)) - M / 2 * du_at uL uR U (1 + k * 2)))).
Proof.
  intros (Ur & Uc) (Xr & Xc) HU uL uR M sn.
  pose proof (lt_Np _ _ _ _ _ _ _ LT) as HN. pose proof (lt_K _ _ _ _ _ _ _ LT) as HK. pose proof (lt_conf _ _ _ _ _ _ _ LT) as HC.
  unfold burgers_rhs. rewrite HC. assert (Cu : conform u Np K = true) by (apply conform_ok; auto). assert (Cx : conform x Np K = true) by (apply conform_ok; auto).
  rewrite Cu, Cx. cbn [andb require].
  unfold tables_conform in HC. rewrite !andb_true_iff, !conform_ok in HC. destruct HC as ((((SD & SL) & Snx) & Srx) & SFs).
  change (max_abs E lowest u) with M. clearbody M.
  rewrite (full_tab (n_nx n) _ 2 K) by (auto; try lia; apply fresh_len). cbn [bind].
  rewrite (full_tab u _ Np K) by (auto; try lia; apply fresh_len). cbn [bind].
  rewrite (full_tab x _ Np K) by (auto; try lia; apply fresh_len). cbn [bind].
  rewrite (lt_M _ _ _ _ _ _ _ LT), (lt_P _ _ _ _ _ _ _ LT), (lt_mI _ _ _ _ _ _ _ LT), (lt_mO _ _ _ _ _ _ _ LT), (lt_vI _ _ _ _ _ _ _ LT), (lt_vO _ _ _ _ _ _ _ LT).
  rewrite index_tab; [|apply fresh_len|intros g Hg; pose proof (endn_lt Np K g ltac:(lia) Hg); lia]. cbn [bind].
  rewrite index_tab; [|apply fresh_len|intros g Hg; pose proof (endn_lt Np K (mate K g) ltac:(lia) (mate_lt K g Hg)); lia]. cbn [bind].
  do 4 (rewrite tab_get by nia; cbn [bind]).
  replace (ment x (0 mod Np) (0 / Np)) with (ment x 0%nat 0%nat) by (rewrite Nat.mod_small, Nat.div_small by lia; reflexivity).
  replace (ment x ((Np * K - 1) mod Np) ((Np * K - 1) / Np)) with (ment x (Np - 1)%nat (K - 1)%nat)
    by (replace (Np * K - 1)%nat with (Np - 1 + (K - 1) * Np)%nat by nia; rewrite Nat.mod_add, Nat.div_add, Nat.mod_small, Nat.div_small by lia; reflexivity).
  change (Burgers2 E ftanh (ment x 0%nat 0%nat) t alpha nu c) with uL. change (Burgers2 E ftanh (ment x (Np - 1)%nat (K - 1)%nat) t alpha nu c) with uR. clearbody uL uR.
  destruct (vtx_node u U HU) as (-> & ->).
  rewrite tab_zipw. do 2 (rewrite tab_set by lia; cbn [bind]).
  match goal with |- context [vectorToFull (tab (2 * K) ?h) _ _] => rewrite (tab_ext (2 * K) h (du_at uL uR U)) end.
  2:{ intros g Hg. cbv beta. rewrite (trace_ok n J rx Fs Np K w LT u U g HU Hg), (trace_ok n J rx Fs Np K w LT u U (mate K g) HU (mate_lt K g Hg)). reflexivity. }
  destruct (unfull_tab (du_at uL uR U) (mkmat 2 K junk) 2 K eq_refl eq_refl) as (DM & EM & DMr & DMc & HM).
  rewrite EM. cbn [bind].
  match goal with |- context [fullToVector ?qq (fresh junkv (Np * K)) false] => set (q := qq) end.
  destruct (interp_exists n J rx Fs Np K w LT q) as (P & HP).
  rewrite (full_tab q _ Np K) by (first [reflexivity | lia | apply fresh_len]). cbn [bind].
  rewrite index_tab; [|apply fresh_len|intros g Hg; pose proof (endn_lt Np K g ltac:(lia) Hg); lia]. cbn [bind].
  rewrite index_tab; [|apply fresh_len|intros g Hg; pose proof (endn_lt Np K (mate K g) ltac:(lia) (mate_lt K g Hg)); lia]. cbn [bind].
  rewrite tab_zipw. do 2 (rewrite tab_set by lia; cbn [bind]).
  rewrite tab_zipw. do 2 (rewrite tab_set by lia; cbn [bind]).
  rewrite !tab_map, !tab_zipw.
  match goal with |- context [vectorToFull (tab (2 * K) ?h) _ _] => rewrite (tab_ext (2 * K) h (fun g => sgn g * (1 / 2 * du2_at uL uR U g - sn * dq_at P g) - M / 2 * du_at uL uR U g)) end.
  2:{ intros g Hg. cbv beta. rewrite (trace_ok n J rx Fs Np K w LT u U g HU Hg), (trace_ok n J rx Fs Np K w LT u U (mate K g) HU (mate_lt K g Hg)).
      rewrite (trace_ok n J rx Fs Np K w LT q P g HP Hg), (trace_ok n J rx Fs Np K w LT q P (mate K g) HP (mate_lt K g Hg)).
      rewrite (nx_ok n J rx Fs Np K w LT g Hg). rewrite fhalf_exact. cbn [exact fmul fsub fsqrt]. unfold sgn, du2_at, dq_at, du_at. change (fofn E 2) with 2. change (fofn E 0) with 0.
      change (sqrt nu) with sn. destruct (g =? 0)%nat, (g =? 2 * K - 1)%nat; field. }
  match goal with |- context [vectorToFull (tab (2 * K) ?h) _ _] => destruct (unfull_tab h (mkmat 2 K junk) 2 K eq_refl eq_refl) as (FM & EF & FMr & FMc & HF) end.
  rewrite EF. cbn [bind]. exists q. eexists. exists P. split; [reflexivity|]. split; [split; reflexivity|]. split; [split; reflexivity|]. split; [exact HP|].
  split.
  - intros i k Hi Hk. unfold q. cbn [mmap sub_product scaled_product mzip ment mrows mcols].
    rewrite (product_deriv G n J rx Fs Np K w LT u k (U k) i (HU k Hk) Hi). rewrite fsum_exact. rewrite !sumn_S, sumn_0. cbn [exact fmul fadd fsub fsqrt].
    rewrite !HM by lia. rewrite (lt_rx _ _ _ _ _ _ _ LT), !(lt_Fs _ _ _ _ _ _ _ LT) by lia. destruct (lt_nx _ _ _ _ _ _ _ LT k Hk) as (-> & ->).
    rewrite fhalf_exact. change (sqrt nu) with sn. ring.
  - intros F HFv HFl i k Hi Hk.
    match goal with |- context [scaled_product E ?a ?D ?m Np Np K] => set (tmp := m) end.
    assert (HI : interpolates Np r tmp k (F k)).
    { split; [apply HFl; auto|]. intros i' Hi'. rewrite HFv by auto. unfold tmp. cbn [mzip ment]. rewrite fhalf_exact. cbn [exact fmul fsub fsqrt]. change (sqrt nu) with sn. field. }
    clearbody tmp. cbn [add_product scaled_product mmap mzip ment mrows mcols].
    rewrite (product_deriv G n J rx Fs Np K w LT tmp k (F k) i HI Hi).
    rewrite fsum_exact. rewrite !sumn_S, sumn_0. rewrite !HF by lia. rewrite !(lt_Fs _ _ _ _ _ _ _ LT), (lt_rx _ _ _ _ _ _ _ LT) by lia.
    cbn [exact fmul fadd fopp]. cbn [Nat.add]. ring.
Qed.
End Burgers.
