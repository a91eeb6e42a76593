(* LinSolve.v - Gaussian elimination over the reals: a nonsingular system has a solution, and a direct solver exists.
   Models nothing in /repo; used for existence statements and as a witness of a direct solver. *)
From Coq Require Import ZArith List Lia Bool Arith.
From Verif Require Import Base Loops Num CscSpec JacobiSpec JacobiQuadProofs HeatSpec.
From Coq Require Import Reals Lra.
Import ListNotations.
Local Open Scope R_scope.

Fixpoint gauss (n : nat) (a : nat -> nat -> R) (b : nat -> R) : option (nat -> R) :=
  match n with
  | 0%nat => Some (fun _ => 0)
  | S m =>
      match find (fun i => negb (Reqb (a i m) 0)) (seq 0 (S m)) with
      | None => None
      | Some p =>
          let s i := if (i =? p)%nat then m else i in
          match gauss m (fun i j => a (s i) j - a (s i) m / a p m * a p j) (fun i => b (s i) - a (s i) m / a p m * b p) with
          | None => None
          | Some x => Some (fun j => if (j =? m)%nat then (b p - sumn m (fun j => a p j * x j)) / a p m else x j)
          end
      end
  end.

Lemma times_S n a x i : times (S n) a x i = times n a x i + a i n * x n.
Proof. unfold times. apply sumn_S. Qed.
Lemma times_ext n a x y i : (forall j, (j < n)%nat -> x j = y j) -> times n a x i = times n a y i.
Proof. intro H. apply sumn_ext. intros j Hj. now rewrite H. Qed.
Lemma pivot_rows m p r : (p < S m)%nat -> (r < S m)%nat -> r = p \/ exists i, (i < m)%nat /\ (if (i =? p)%nat then m else i) = r.
Proof.
  intros Hp Hr. destruct (Nat.eq_dec r p) as [|Hne]; [left; assumption|right]. destruct (Nat.eq_dec r m) as [-> |Hm].
  - exists p. rewrite Nat.eqb_refl. split; [lia|reflexivity].
  - exists r. destruct (Nat.eqb_spec r p); [contradiction|]. split; [lia|reflexivity].
Qed.
Lemma times_elim m a x c p r : times m (fun i j => a (r i) j - c i * a p j) x = fun i => times m a x (r i) - c i * times m a x p.
Proof.
  unfold times. apply FunctionalExtensionality.functional_extensionality. intro i.
  rewrite (sumn_ext m _ (fun j => a (r i) j * x j + - c i * (a p j * x j))) by (intros; ring). rewrite sumn_plus, sumn_scal. ring.
Qed.
Lemma gauss_ok n : forall a b, nonsingular n a -> exists x, gauss n a b = Some x /\ forall i, (i < n)%nat -> times n a x i = b i.
Proof.
  induction n as [|m IH]; intros a b H.
  - exists (fun _ => 0). split; [reflexivity|]. intros i Hi. lia.
  - cbn [gauss]. destruct (find (fun i => negb (Reqb (a i m) 0)) (seq 0 (S m))) as [p|] eqn:E.
    + apply find_some in E. destruct E as (Hp & Ep). apply in_seq in Hp. assert (Hpm : (p < S m)%nat) by lia. clear Hp. unfold Reqb in Ep. destruct (Req_EM_T (a p m) 0) as [|Hne]; [discriminate|]. clear Ep.
      set (s := fun i => if (i =? p)%nat then m else i). set (a' := fun i j => a (s i) j - a (s i) m / a p m * a p j). set (b' := fun i => b (s i) - a (s i) m / a p m * b p).
      assert (HT : forall x i, times m a' x i = times m a x (s i) - a (s i) m / a p m * times m a x p).
      { intros x i. unfold a'. now rewrite (times_elim m a x (fun i => a (s i) m / a p m) p s). }
      assert (Hs : forall i, (i < m)%nat -> (s i < S m)%nat) by (intros i Hi; unfold s; destruct (i =? p)%nat; lia).
      assert (HN : nonsingular m a').
      { intros x Hx i Hi. set (y := fun j => if (j =? m)%nat then - times m a x p / a p m else x j).
        assert (Hy : forall r, times m a y r = times m a x r) by (intro r; apply times_ext; intros j Hj; unfold y; destruct (Nat.eqb_spec j m); [lia|reflexivity]).
        assert (Hym : y m = - times m a x p / a p m) by (unfold y; now rewrite Nat.eqb_refl).
        specialize (H y). assert (Hz : y i = 0).
        { apply H; [|lia]. intros r Hr. rewrite times_S, Hy, Hym. destruct (pivot_rows m p r Hpm Hr) as [-> |(j & Hj & Ej)].
          - field. exact Hne.
          - pose proof (Hx j Hj) as H1. rewrite HT in H1. unfold s in H1. rewrite Ej in H1. assert (E1 : times m a x r = a r m / a p m * times m a x p) by lra. rewrite E1. field. exact Hne. }
        unfold y in Hz. destruct (Nat.eqb_spec i m); [lia|exact Hz]. }
      destruct (IH a' b' HN) as (x & Ex & Hx). match goal with |- context [gauss m ?f ?g] => change (gauss m f g) with (gauss m a' b') end. rewrite Ex.
      eexists. split; [reflexivity|]. intros r Hr. set (y := fun j => if (j =? m)%nat then (b p - sumn m (fun j => a p j * x j)) / a p m else x j).
      assert (Hy : forall r, times m a y r = times m a x r) by (intro r'; apply times_ext; intros j Hj; unfold y; destruct (Nat.eqb_spec j m); [lia|reflexivity]).
      assert (Hym : y m = (b p - times m a x p) / a p m) by (unfold y; now rewrite Nat.eqb_refl).
      rewrite times_S, Hy, Hym. destruct (pivot_rows m p r Hpm Hr) as [-> |(j & Hj & Ej)].
      * field. exact Hne.
      * pose proof (Hx j Hj) as H1. rewrite HT in H1. unfold b', s in H1. rewrite Ej in H1. assert (E1 : times m a x r = b r - a r m / a p m * b p + a r m / a p m * times m a x p) by lra. rewrite E1. field. exact Hne.
    + exfalso. pose proof (find_none _ _ E) as HN. assert (H1 : (1:R) = 0); [|lra].
      pose (d := fun j => if (j =? m)%nat then 1 else 0). assert (Ed : d m = 1) by (unfold d; now rewrite Nat.eqb_refl). rewrite <- Ed. apply H; [|lia]. intros i Hi. rewrite times_S, Ed.
      assert (E0 : a i m = 0). { assert (Hin : In i (seq 0 (S m))) by (apply in_seq; lia). specialize (HN i Hin). cbn beta in HN. unfold Reqb in HN. destruct (Req_EM_T (a i m) 0); [assumption|discriminate]. }
      rewrite E0. unfold times. rewrite sumn_zero; [ring|]. intros j Hj. unfold d. destruct (Nat.eqb_spec j m); [lia|ring].
Qed.
(* every system with a nonsingular matrix has a solution *)
Lemma solvable n a b : nonsingular n a -> exists x, forall i, (i < n)%nat -> times n a x i = b i.
Proof. intro H. destruct (gauss_ok n a b H) as (x & _ & Hx). exists x. exact Hx. Qed.
Lemma times_minus n a x y i : times n a (fun j => x j - y j) i = times n a x i - times n a y i.
Proof. unfold times. rewrite (sumn_ext n _ (fun j => a i j * x j + -1 * (a i j * y j))) by (intros; ring). rewrite sumn_plus, sumn_scal. ring. Qed.
Lemma solution_unique n a x y : nonsingular n a -> (forall i, (i < n)%nat -> times n a x i = times n a y i) -> forall i, (i < n)%nat -> x i = y i.
Proof.
  intros H E i Hi. assert (H0 : x i - y i = 0); [|lra]. apply (H (fun j => x j - y j)); [|exact Hi]. intros k Hk. rewrite times_minus, (E k Hk). ring.
Qed.

(* a direct solver *)
Definition gauss_splu (n : nat) (ts : list (nat * nat * R)) : outcome (list R -> list R) :=
  Ok (fun b => match gauss n (matrix ts) (fun i => nth i b 0) with Some x => map x (seq 0 n) | None => [] end).
Lemma gauss_direct : direct gauss_splu.
Proof.
  intros n ts _ H. eexists. split; [reflexivity|]. intros b Hb. destruct (gauss_ok n (matrix ts) (fun i => nth i b 0) H) as (x & Ex & Hx). rewrite Ex.
  split; [now rewrite map_length, seq_length|]. intros i Hi. rewrite <- (Hx i Hi). apply times_ext. intros j Hj.
  rewrite (nth_indep _ 0 (x 0%nat)) by (rewrite map_length, seq_length; lia). rewrite map_nth, seq_nth by lia. reflexivity.
Qed.
