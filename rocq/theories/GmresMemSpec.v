(* GmresMemSpec.v - what it means that a routine does not look at certain storage. Matrices are column-major with leading dimension
   lda, as in GmresModel.v: entry (r, c) is at place c*lda + r. *)
From Coq Require Import List SpecFloat.
Import ListNotations.
Local Open Scope nat_scope.

(* the callback does not look at what the output vector holds when it is called *)
Definition ignores_output {T Env} (f : Env -> list T -> list T -> Env * bool * list T) : Prop :=
  forall e v o o', length o = length o' -> f e v o = f e v o'.
(* the triangular solve looks at the upper triangle of the leading n by n block only *)
Definition reads_upper {T} (f : nat -> nat -> list T -> list T -> list T) : Prop :=
  forall n lda a a' x, n <= lda -> length a = length a' -> n * lda <= length a ->
    (forall r c, r <= c -> c < n -> nth_error a (c * lda + r) = nth_error a' (c * lda + r)) -> f n lda a x = f n lda a' x.
(* the product looks at the leading m by n block only *)
Definition reads_block {T} (f : nat -> nat -> nat -> list T -> list T -> list T) : Prop :=
  forall m n lda a a' x, m <= lda -> length a = length a' -> n * lda <= length a ->
    (forall r c, r < m -> c < n -> nth_error a (c * lda + r) = nth_error a' (c * lda + r)) -> f m n lda a x = f m n lda a' x.
(* DROTG on doubles, given nothing to remove: the sine is a zero, or not a number *)
Definition idle_rotation (f : spec_float -> spec_float -> spec_float * spec_float * spec_float) : Prop :=
  forall a s0 r c s, f a (S754_zero s0) = (r, c, s) -> (forall s1, r <> S754_zero s1) -> s = S754_nan \/ exists s1, s = S754_zero s1.
