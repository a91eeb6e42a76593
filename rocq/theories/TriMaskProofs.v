(* TriMaskProofs.v - the order of the nodes listed in the face masks. *)
From Coq Require Import ZArith List Lia Bool Arith.
From Verif Require Import Base Loops Num BlitzModel JacobiModel TriModel TriSpec TriProofs TriNodesProofs.
Import ListNotations.

(* strictly increasing lists with the same elements are equal *)
Definition incr (l : list nat) : Prop := forall i, S i < length l -> nth i l 0 < nth (S i) l 0.
Lemma incr_lt l : incr l -> forall i j, i < j < length l -> nth i l 0 < nth j l 0.
Proof.
  intros H i j. induction j as [|j IH]; intros Hj; [lia|]. destruct (Nat.eq_dec i j) as [->|]; [apply H; lia|]. specialize (IH ltac:(lia)). specialize (H j ltac:(lia)). lia.
Qed.
Lemma incr_tail a l : incr (a :: l) -> incr l /\ forall x, In x l -> a < x.
Proof.
  intro H. split; [intros i Hi; apply (H (S i)); cbn [length]; lia|]. intros x Hx. destruct (In_nth _ _ 0 Hx) as (i & Hi & <-). apply (incr_lt _ H 0 (S i)). cbn [length]. lia.
Qed.
Lemma incr_eq l : forall m, incr l -> incr m -> (forall x, In x l <-> In x m) -> l = m.
Proof.
  induction l as [|a l IH]; intros [|b m] Hl Hm HI; [reflexivity|destruct (proj2 (HI b)); left; reflexivity|destruct (proj1 (HI a)); left; reflexivity|].
  destruct (incr_tail _ _ Hl) as (Hl' & La). destruct (incr_tail _ _ Hm) as (Hm' & Lb).
  assert (E : a = b).
  { destruct (proj1 (HI a) (or_introl eq_refl)) as [->|Ha]; [reflexivity|]. destruct (proj2 (HI b) (or_introl eq_refl)) as [->|Hb]; [reflexivity|]. specialize (La _ Hb). specialize (Lb _ Ha). lia. }
  subst b. f_equal. apply IH; auto. intro x. split; intro Hx.
  - destruct (proj1 (HI x) (or_intror Hx)) as [<-|]; [specialize (La _ Hx); lia|assumption].
  - destruct (proj2 (HI x) (or_intror Hx)) as [<-|]; [specialize (Lb _ Hx); lia|assumption].
Qed.

Lemma on_edge_pair' N f q : f < 3 -> q < length (modes N) -> on_edge N f q -> exists t, t <= N /\ mode N q = edge_pair N f t.
Proof.
  intros Hf Hq. unfold on_edge, edge_pair. pose proof (mode_le N q Hq). destruct (mode N q) as [i j]. cbn [fst snd] in *. intro H0.
  destruct f as [|[|[|]]]; try lia; [exists j|exists i|exists i]; (split; [lia|]); f_equal; lia.
Qed.
Lemma edge_pair_on' N f t q : f < 3 -> t <= N -> mode N q = edge_pair N f t -> on_edge N f q.
Proof. intros Hf Ht Eq. unfold on_edge. rewrite Eq. destruct f as [|[|[|]]]; cbn; lia. Qed.
Definition pos (N f t : nat) : nat := length (prefix N (fst (edge_pair N f t))) + snd (edge_pair N f t).
Lemma mask_order N f mask : f < 3 -> length mask = S N -> (forall i, i < N -> nth i mask 0 < nth (S i) mask 0) ->
  (forall q, In q mask <-> q < length (modes N) /\ on_edge N f q) -> forall t, t <= N -> nth t mask 0 < length (modes N) /\ mode N (nth t mask 0) = edge_pair N f t.
Proof.
  intros Hf Lm Hi Hin.
  assert (Hpos : forall t, t <= N -> nth_error (modes N) (pos N f t) = Some (edge_pair N f t)).
  { intros t Ht. unfold pos. rewrite nth_modes; [destruct (edge_pair N f t); reflexivity| |]; destruct f as [|[|[|]]]; cbn [edge_pair fst snd]; lia. }
  assert (E : mask = map (pos N f) (seq 0 (S N))).
  { apply incr_eq.
    - intros i H. apply Hi. lia.
    - intros i H. rewrite map_length, seq_length in H. rewrite !(nth_indep _ 0 (pos N f 0)) by (rewrite map_length, seq_length; lia). rewrite !map_nth, !seq_nth by lia. cbn [plus].
      unfold pos. destruct f as [|[|[|]]]; cbn [edge_pair fst snd]; [lia| | |lia]; rewrite pre_S_len; lia.
    - intro q. rewrite Hin, in_map_iff. split.
      + intros (Hq & Ho). destruct (on_edge_pair' N f q Hf Hq Ho) as (t & Ht & Et). exists t. split; [|apply in_seq; lia].
        assert (Hp := Hpos t Ht). apply (proj1 (NoDup_nth_error (modes N))); [apply TriOpProofs.modes_nodup|apply nth_error_Some; congruence|]. rewrite Hp. rewrite <- Et. unfold mode. symmetry. apply nth_error_nth'. exact Hq.
      + intros (t & <- & Ht). apply in_seq in Ht. assert (Hp := Hpos t ltac:(lia)). destruct (edge_pair N f t) as [i j] eqn:Ee. destruct (mode_error _ _ _ _ Hp) as (Em & Lq). split; [exact Lq|]. apply (edge_pair_on' N f t); [exact Hf|lia|]. rewrite Em, Ee. reflexivity. }
  intros t Ht. rewrite E. rewrite (nth_indep _ 0 (pos N f 0)) by (rewrite map_length, seq_length; lia). rewrite map_nth, seq_nth by lia. cbn [plus].
  assert (Hp := Hpos t Ht). destruct (edge_pair N f t) as [i j]. destruct (mode_error _ _ _ _ Hp) as (Em & Lq). split; assumption.
Qed.
