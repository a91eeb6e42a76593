(* FoldProofs.v - nested loops as one pass over a list of index tuples. Nothing here models /repo. *)
From Coq Require Import ZArith List Lia Bool FinFun.
From Verif Require Import Base Loops.
Import ListNotations.
Local Open Scope nat_scope.

Fixpoint foldM {St Key} (f : Key -> St -> outcome St) (l : list Key) (s : St) : outcome St :=
  match l with [] => Ok s | a :: l' => bind (f a s) (foldM f l') end.
Lemma bind_assoc {A B C} (o : outcome A) (f : A -> outcome B) (g : B -> outcome C) : bind (bind o f) g = bind o (fun a => bind (f a) g).
Proof. destruct o; reflexivity. Qed.
Lemma bind_ext {A B} (o : outcome A) (f g : A -> outcome B) : (forall a, f a = g a) -> bind o f = bind o g.
Proof. intro H. destruct o; cbn; auto. Qed.
Lemma foldM_ext {St Key} (f g : Key -> St -> outcome St) l : (forall a s, In a l -> f a s = g a s) -> forall s, foldM f l s = foldM g l s.
Proof. induction l; intros H s; cbn [foldM]; [reflexivity|]. rewrite H by (left; reflexivity). apply bind_ext. intro b. apply IHl. intros. apply H. now right. Qed.
Lemma foldM_app {St Key} (f : Key -> St -> outcome St) l l' s : foldM f (l ++ l') s = bind (foldM f l s) (foldM f l').
Proof. revert s. induction l; intro s; cbn [foldM app]; [reflexivity|]. rewrite bind_assoc. apply bind_ext. intro b. apply IHl. Qed.
Lemma foldM_map {St K1 K2} (f : K2 -> St -> outcome St) (h : K1 -> K2) l s : foldM f (map h l) s = foldM (fun a => f (h a)) l s.
Proof. revert s. induction l; intro s; cbn [foldM map]; [reflexivity|]. apply bind_ext. intro. apply IHl. Qed.
Lemma foldM_flat_map {St K1 K2} (f : K2 -> St -> outcome St) (h : K1 -> list K2) l s :
  foldM f (flat_map h l) s = foldM (fun a => foldM f (h a)) l s.
Proof. revert s. induction l; intro s; cbn [foldM flat_map]; [reflexivity|]. rewrite foldM_app. apply bind_ext. intro. apply IHl. Qed.
Lemma for_from_fold {St} n : forall lo (body : nat -> St -> outcome St) s, for_from lo n body s = foldM body (seq lo n) s.
Proof. induction n; intros; cbn [for_from foldM seq]; [reflexivity|]. apply bind_ext. intro. apply IHn. Qed.
Lemma for_fold {St} n (body : nat -> St -> outcome St) s : for_ n body s = foldM body (seq 0 n) s.
Proof. apply for_from_fold. Qed.

Definition pairs (a b : nat) : list (nat * nat) := flat_map (fun i => map (fun j => (i, j)) (seq 0 b)) (seq 0 a).
Definition triples (a b c : nat) : list (nat * nat * nat) := flat_map (fun i => map (fun p => (i, fst p, snd p)) (pairs b c)) (seq 0 a).
Lemma for2 {St} a b (body : nat -> nat -> St -> outcome St) s :
  for_ a (fun i => for_ b (fun j => body i j)) s = foldM (fun p => body (fst p) (snd p)) (pairs a b) s.
Proof. unfold pairs. rewrite for_fold, foldM_flat_map. apply foldM_ext. intros. rewrite for_fold, foldM_map. reflexivity. Qed.
Lemma for3 {St} a b c (body : nat -> nat -> nat -> St -> outcome St) s :
  for_ a (fun i => for_ b (fun j => for_ c (fun k => body i j k))) s =
  foldM (fun p => body (fst (fst p)) (snd (fst p)) (snd p)) (triples a b c) s.
Proof.
  unfold triples. rewrite for_fold, foldM_flat_map. apply foldM_ext. intros. rewrite foldM_map. cbn [fst snd].
  rewrite (for2 b c (body a0)). reflexivity.
Qed.

Lemma nth_flat_map {X Y} (h : X -> list Y) m l i j x : (forall x, In x l -> length (h x) = m) -> nth_error l i = Some x -> j < m ->
  nth_error (flat_map h l) (i * m + j) = nth_error (h x) j.
Proof.
  revert i. induction l as [|a l IH]; intros i Hm Hi Hj; [destruct i; discriminate|].
  assert (La := Hm a (or_introl eq_refl)). destruct i; cbn [nth_error flat_map] in *.
  - injection Hi as ->. rewrite nth_error_app1 by lia. f_equal.
  - rewrite nth_error_app2 by lia. rewrite La. rewrite <- (IH i); auto.
    + f_equal. lia.
    + intros. apply Hm. now right.
Qed.
Lemma flat_map_len {X Y} (h : X -> list Y) m l : (forall x, In x l -> length (h x) = m) -> length (flat_map h l) = length l * m.
Proof. induction l; intro H; cbn [flat_map length]; [reflexivity|]. rewrite app_length, H by now left. rewrite IHl; [lia|]. intros. apply H. now right. Qed.
Lemma nth_error_seq' n i lo : i < n -> nth_error (seq lo n) i = Some (lo + i).
Proof. revert lo i. induction n; intros lo i H; [lia|]. destruct i; cbn; [f_equal; lia|]. rewrite IHn by lia. f_equal. lia. Qed.
Lemma pairs_len a b : length (pairs a b) = a * b.
Proof. unfold pairs. rewrite (flat_map_len _ b); [now rewrite seq_length|]. intros. now rewrite map_length, seq_length. Qed.
Lemma pairs_nth a b i j : i < a -> j < b -> nth_error (pairs a b) (i * b + j) = Some (i, j).
Proof.
  intros Hi Hj. unfold pairs. rewrite (nth_flat_map _ b _ _ _ i); auto.
  - rewrite nth_error_map, nth_error_seq' by auto. reflexivity.
  - intros. now rewrite map_length, seq_length.
  - now rewrite nth_error_seq'.
Qed.
Lemma triples_len a b c : length (triples a b c) = a * (b * c).
Proof. unfold triples. rewrite (flat_map_len _ (b * c)); [now rewrite seq_length|]. intros. now rewrite map_length, pairs_len. Qed.
Lemma triples_nth a b c i j k : i < a -> j < b -> k < c -> nth_error (triples a b c) (i * (b * c) + (j * c + k)) = Some (i, j, k).
Proof.
  intros Hi Hj Hk. unfold triples. rewrite (nth_flat_map _ (b * c) _ _ _ i); auto.
  - rewrite nth_error_map, pairs_nth by auto. reflexivity.
  - intros. now rewrite map_length, pairs_len.
  - now rewrite nth_error_seq'.
  - nia.
Qed.
Lemma pairs_in a b i j : In (i, j) (pairs a b) <-> i < a /\ j < b.
Proof.
  unfold pairs. rewrite in_flat_map. split.
  - intros (x & Hx & Hi). apply in_map_iff in Hi as (y & Hy & Hs). injection Hy as -> ->. apply in_seq in Hx, Hs. lia.
  - intros (Hi & Hj). exists i. split; [apply in_seq; lia|]. apply in_map_iff. exists j. split; [reflexivity|]. apply in_seq; lia.
Qed.
Lemma triples_in a b c i j k : In (i, j, k) (triples a b c) <-> i < a /\ j < b /\ k < c.
Proof.
  unfold triples. rewrite in_flat_map. split.
  - intros (x & Hx & Hi). apply in_map_iff in Hi as ((y & z) & Hy & Hs). injection Hy as -> <- <-. apply in_seq in Hx. apply pairs_in in Hs. cbn. lia.
  - intros (Hi & Hj & Hk). exists i. split; [apply in_seq; lia|]. apply in_map_iff. exists (j, k). split; [reflexivity|]. now apply pairs_in.
Qed.
Lemma nodup_flat_map {X Y} (h : X -> list Y) (key : Y -> X) l : NoDup l -> (forall x, NoDup (h x)) -> (forall x y, In y (h x) -> key y = x) -> NoDup (flat_map h l).
Proof.
  intros Hl Hh Hk. induction Hl as [|x l Hn Hl IH]; cbn [flat_map]; [constructor|].
  assert (D : forall y, In y (h x) -> ~ In y (flat_map h l)).
  { intros y Hy Hy'. apply in_flat_map in Hy' as (x' & Hx' & Hy'). apply Hk in Hy, Hy'. congruence. }
  generalize (Hh x). induction (h x) as [|y t IHt]; intro Hn'; [exact IH|]. inversion Hn'; subst. cbn [app]. constructor.
  - rewrite in_app_iff. intros [H|H]; [auto|]. apply (D y); [now left|exact H].
  - apply IHt; auto. intros z Hz. apply D. now right.
Qed.
Lemma pairs_nodup a b : NoDup (pairs a b).
Proof.
  apply (nodup_flat_map _ fst); [apply seq_NoDup| |].
  - intro. apply Injective_map_NoDup; [|apply seq_NoDup]. intros u v H. congruence.
  - intros x y Hy. apply in_map_iff in Hy as (z & <- & _). reflexivity.
Qed.
Lemma triples_nodup a b c : NoDup (triples a b c).
Proof.
  apply (nodup_flat_map _ (fun p => fst (fst p))); [apply seq_NoDup| |].
  - intro. apply Injective_map_NoDup; [|apply pairs_nodup]. intros [u1 u2] [v1 v2] H. cbn in H. congruence.
  - intros x y Hy. apply in_map_iff in Hy as (z & <- & _). reflexivity.
Qed.

(* Each step of the pass sets its own cell, which still has its first value, and nothing else. *)
Lemma fold_cells {St Key V} (inv : St -> Prop) (cell : St -> Key -> V) (d v : Key -> V) (body : Key -> St -> outcome St) l :
  NoDup l ->
  (forall a s, In a l -> inv s -> cell s a = d a -> exists s', body a s = Ok s' /\ inv s' /\ cell s' a = v a /\ forall b, b <> a -> cell s' b = cell s b) ->
  forall s, inv s -> (forall a, In a l -> cell s a = d a) ->
  exists s', foldM body l s = Ok s' /\ inv s' /\ (forall a, In a l -> cell s' a = v a) /\ (forall a, ~ In a l -> cell s' a = cell s a).
Proof.
  induction l as [|a l IH]; intros Hn Hb s Hi Hd.
  - exists s. cbn. repeat split; auto. intros a [].
  - inversion Hn as [|? ? Ha Hl]; subst. destruct (Hb a s) as (s1 & E1 & I1 & C1 & O1); [now left|exact Hi|apply Hd; now left|].
    destruct (IH Hl) with (s := s1) as (s2 & E2 & I2 & C2 & O2).
    + intros. apply Hb; auto. now right.
    + exact I1.
    + intros b Hb'. rewrite O1 by congruence. apply Hd. now right.
    + exists s2. cbn [foldM]. rewrite E1. cbn [bind]. split; [exact E2|]. split; [exact I2|]. split.
      * intros b [<-|Hb']; [|auto]. rewrite O2 by auto. exact C1.
      * intros b Hb'. rewrite O2 by (intro; apply Hb'; now right). apply O1. intros ->. apply Hb'. now left.
Qed.

Lemma foldM_inv {St Key} (P : list Key -> St -> Prop) (body : Key -> St -> outcome St) l : forall done s, P done s ->
  (forall d a s, (exists rest, done ++ l = d ++ a :: rest) -> P d s -> exists s', body a s = Ok s' /\ P (d ++ [a]) s') ->
  exists s', foldM body l s = Ok s' /\ P (done ++ l) s'.
Proof.
  induction l as [|a l IH]; intros done s H0 Hs; cbn [foldM].
  - exists s. rewrite app_nil_r. auto.
  - destruct (Hs done a s) as (s1 & E & P1); [eauto|auto|]. rewrite E. cbn [bind].
    destruct (IH (done ++ [a]) s1 P1) as (s2 & E2 & P2).
    + intros d b s' (rest & Hr). apply Hs. exists rest. rewrite <- Hr, <- app_assoc. reflexivity.
    + exists s2. split; [exact E2|]. rewrite <- app_assoc in P2. exact P2.
Qed.
