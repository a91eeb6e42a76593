(* GmresModel.v - the restarted GMRES solver: include/GMRESSolver.hpp, src/GMRESSolver.cpp and the helpers of
   include/LinAlgHelpers.hpp it uses. The operator and the preconditioner are arbitrary user callbacks with a
   hidden state; BLAS routines are parameters. Console output (verbose) is not modelled. *)
From Coq Require Import ZArith List Bool.
From Verif Require Import Base Loops Num.
Import ListNotations.
Local Open Scope nat_scope.

(* ConvFlag: include/GMRESSolver.hpp:64-75 *)
Inductive gflag := F_unconverged | F_success | F_diverged | F_maxits | F_stagnation | F_breakdown | F_true_rnrm
  | F_inf_or_nan | F_precon_fail | F_matvec_fail.
(* The texts assigned to GMRESOut::msg, by the place that assigns them: include/GMRESSolver.hpp:242, 289, 294,
   328-329, 386, 398, 442. *)
Inductive gmsg := G_none | G_init_matvec | G_inner_precon | G_inner_matvec | G_singular (i : nat) | G_update_precon
  | G_update_matvec | G_test_skipped.

Section Gmres.
Context {T : Type} (A : arith T).
Local Notation "# n" := (fofn A n) (at level 1, format "# n").
Variable isfin : T -> bool.                                (* std::isfinite *)
Variable Env : Type.                                       (* state hidden behind the callbacks *)
(* bool mvec(in, out): the third argument is the content of out before the call. *)
Variable mvec precon : Env -> list T -> list T -> Env * bool * list T.
(* BLAS on column-major storage with leading dimension lda: dtrsv n lda a x, dgemv m n lda a x; drotg a b = (r, c, s) *)
Variable dtrsv : nat -> nat -> list T -> list T -> list T.
Variable dgemv : nat -> nat -> nat -> list T -> list T -> list T.
Variable drotg : T -> T -> T * T * T.
Variable junk : nat -> T.                                  (* uninitialised vectors *)
Variable junkm : nat -> nat -> T.                          (* uninitialised matrices *)

(* GMRESParams: include/GMRESSolver.hpp:93-109 (verbose is left out) *)
Record gparams := GParams { testTrueRnrm : bool; kspaceSz : Z; maxits : Z; relTol : T; absTol : T; divTol : T; stgTol : T }.
(* GMRESOut: include/GMRESSolver.hpp:120-131 *)
Record gout := GOut { g_flag : gflag; g_inner : nat; g_outer : nat; g_relres : T; g_msg : gmsg }.

(* checkGMRESParams: src/GMRESSolver.cpp:76-89 *)
Definition checkParams (p : gparams) : bool :=
  negb ((kspaceSz p <? 1)%Z || (maxits p <? 1)%Z || flt A (relTol p) #0 || flt A (absTol p) #0
        || fle A (divTol p) #0 || flt A (stgTol p) #0).

(* ---- vectors; operations on vectors of different lengths are undefined in blitz ---- *)
Definition vsum (v : list T) : T := fold_left (fadd A) v #0.
Definition vmap2 (f : T -> T -> T) (a b : list T) : outcome (list T) :=
  if length a =? length b then Ok (map (fun p => f (fst p) (snd p)) (combine a b)) else UB.
Definition vdot (a b : list T) : outcome T := bind (vmap2 (fmul A) a b) (fun p => Ok (vsum p)).
(* norm2: include/LinAlgHelpers.hpp:63-66 *)
Definition norm2 (v : list T) : T := fsqrt A (vsum (map (fun x => fmul A x x) v)).
(* isNonzero: include/GMRESSolver.hpp:51-54 *)
Definition isNonzero (v : list T) : bool := existsb (fun x => negb (feq A x #0)) v.
(* M(Range::all(), j) read and written *)
Definition getcol (m : mat T) (j : nat) : outcome (list T) :=
  if j <? mcols m then Ok (map (fun i => ment m i j) (seq 0 (mrows m))) else UB.
Definition setcol (m : mat T) (j : nat) (v : list T) : outcome (mat T) :=
  if (j <? mcols m) && (length v =? mrows m)
  then Ok (mkmat (mrows m) (mcols m) (fun a b => if b =? j then nth a v #0 else ment m a b)) else UB.
(* the memory of a column-major array *)
Definition flat_cm (m : mat T) : list T := concat (map (fun j => map (fun i => ment m i j) (seq 0 (mrows m))) (seq 0 (mcols m))).

(* applyGivens: include/LinAlgHelpers.hpp:46-50 *)
Definition applyGivens (c s x y : T) : T * T :=
  (fadd A (fmul A c x) (fmul A s y), fsub A (fmul A c y) (fmul A s x)).

(* backSolve and matTimesVec: src/GMRESSolver.cpp:26-48. The pointers handed to BLAS must cover what it reads. *)
Definition backSolve (n : nat) (H : mat T) (x : list T) : outcome (list T) :=
  if (n <=? mrows H) && (n <=? mcols H) && (n <=? length x) then Ok (dtrsv n (mrows H) (flat_cm H) x) else UB.
Definition matTimesVec (n : nat) (V : mat T) (x : list T) (result : list T) : outcome (list T) :=
  if (n <=? mcols V) && (n <=? length x) && (mrows V =? length result) then Ok (dgemv (mrows V) n (mrows V) (flat_cm V) x) else UB.

(* the work arrays: include/GMRESSolver.hpp:224-227 *)
Record work := Work { k_V : mat T; k_H : mat T; k_s : list T; k_giv : list (T * T); k_pv : list T; k_w : list T }.

(* The modified Gram-Schmidt loop: include/GMRESSolver.hpp:298-302 *)
Definition mgs (V : mat T) (i : nat) (st : list T * mat T) : outcome (list T * mat T) :=
  for_ (S i) (fun j '(w, H) =>
    bind (getcol V j) (fun vj => bind (vdot w vj) (fun hji =>
    bind (vmap2 (fun a c => fsub A a (fmul A hji c)) w vj) (fun w' =>
    bind (mset H j i hji) (fun H' => Ok (w', H')))))) st.

(* Earlier rotations on column i: include/GMRESSolver.hpp:316-318 *)
Definition rotate_col (giv : list (T * T)) (i : nat) (H : mat T) : outcome (mat T) :=
  for_ i (fun j H =>
    bind (getn giv j) (fun '(c, s) => bind (mget H j i) (fun a => bind (mget H (j + 1) i) (fun b =>
    let (a', b') := applyGivens c s a b in
    bind (mset H j i a') (fun H1 => mset H1 (j + 1) i b'))))) H.

Inductive istep :=
  | INext (wk : work) (rnrm : T) (e : Env)
  | IBreak (f : gflag) (wk : work) (rnrm : T) (e : Env)
  | IFail (f : gflag) (m : gmsg) (e : Env).

(* body of the inner loop: include/GMRESSolver.hpp:283-368 *)
Definition inner_step (convTol divTol' : T) (i : nat) (wk : work) (e : Env) : outcome istep :=
  bind (getcol (k_V wk) i) (fun vi =>
  let '(e1, ok1, pv) := precon e vi (k_pv wk) in
  if negb ok1 then Ok (IFail F_precon_fail G_inner_precon e1) else
  let '(e2, ok2, w0) := mvec e1 pv (k_w wk) in
  if negb ok2 then Ok (IFail F_matvec_fail G_inner_matvec e2) else
  bind (mgs (k_V wk) i (w0, k_H wk)) (fun '(w, H1) =>
  let hn := norm2 w in
  bind (mset H1 (i + 1) i hn) (fun H2 =>
  bind (if negb (feq A hn #0)
        then setcol (k_V wk) (i + 1) (map (fun x => fmul A x (fdiv A #1 hn)) w)
        else Ok (k_V wk)) (fun V1 =>
  bind (rotate_col (k_giv wk) i H2) (fun H3 =>
  bind (mget H3 i i) (fun a => bind (mget H3 (i + 1) i) (fun b =>
  let '(r, c, sn) := drotg a b in                          (* LinAlgHelpers.cpp:11-14 sets b = 0 *)
  bind (mset H3 i i r) (fun H4 => bind (mset H4 (i + 1) i #0) (fun H5 =>
  bind (setn (k_giv wk) i (c, sn)) (fun giv' =>
  if feq A r #0 then Ok (IFail F_breakdown (G_singular i) e2) else
  bind (getn (k_s wk) i) (fun s0 => bind (getn (k_s wk) (i + 1)) (fun s1 =>
  let (s0', s1') := applyGivens c sn s0 s1 in
  bind (setn (k_s wk) i s0') (fun sa => bind (setn sa (i + 1) s1') (fun sb =>
  let rnrm := fabs A s1' in
  let wk' := Work V1 H5 sb giv' pv w in
  if negb (isfin rnrm) then Ok (IFail F_inf_or_nan G_none e2) else
  if fle A rnrm convTol then Ok (IBreak F_success wk' rnrm e2) else
  if fle A divTol' rnrm then Ok (IBreak F_diverged wk' rnrm e2) else
  Ok (INext wk' rnrm e2))))))))))))))).

Inductive iresult :=
  | IUpdate (f : gflag) (iupdate inner : nat) (wk : work) (rnrm : T) (e : Env)
  | IReturn (f : gflag) (m : gmsg) (inner : nat) (e : Env).

(* the inner loop: include/GMRESSolver.hpp:281-369; n iterations are left, i is the next index, inner the value of
   ret.innerIts so far. *)
Fixpoint inner_loop (convTol divTol' : T) (n i inner : nat) (wk : work) (rnrm : T) (e : Env) : outcome iresult :=
  match n with
  | O => Ok (IUpdate F_unconverged i inner wk rnrm e)
  | S n' =>
    bind (inner_step convTol divTol' i wk e) (fun st =>
    match st with
    | INext wk' rnrm' e' => inner_loop convTol divTol' n' (S i) i wk' rnrm' e'
    | IBreak f wk' rnrm' e' => Ok (IUpdate f (i + 1) i wk' rnrm' e')
    | IFail f m e' => Ok (IReturn f m i e')
    end)
  end.

(* the stagnation test: include/GMRESSolver.hpp:417-425 *)
Definition stagnated (stg : T) (x pv : list T) : bool :=
  negb (existsb (fun '(xj, pj) => negb (feq A xj #0) && flt A (fmul A stg (fabs A xj)) (fabs A pj)) (combine x pv)).

Inductive oresult :=
  | ODone (f : gflag) (test : bool) (inner outer : nat) (x w : list T) (rnrm : T) (e : Env)   (* leaves the loop *)
  | OReturn (o : gout) (x : list T) (e : Env).

(* the outer loop: include/GMRESSolver.hpp:272-430; n iterations are left, k is the next index *)
Fixpoint outer_loop (p : gparams) (kspace : nat) (b : list T) (bnrmInv convTol divTol' : T)
    (n k inner outer : nat) (wk : work) (x r : list T) (rnrm : T) (e : Env) : outcome oresult :=
  match n with
  | O => Ok (ODone F_unconverged (testTrueRnrm p) inner outer x (k_w wk) rnrm e)
  | S n' =>
    let relres0 := fmul A bnrmInv rnrm in
    bind (setcol (k_V wk) 0 (map (fun v => fmul A v (fdiv A #1 rnrm)) r)) (fun V0 =>
    bind (setn (map (fun _ => #0) (k_s wk)) 0 rnrm) (fun s0 =>
    bind (inner_loop convTol divTol' kspace 0 inner (Work V0 (k_H wk) s0 (k_giv wk) (k_pv wk) (k_w wk)) rnrm e) (fun ir =>
    match ir with
    | IReturn f m i e' => Ok (OReturn (GOut f i k relres0 m) x e')
    | IUpdate f iupdate i wk' rnrm' e' =>
      bind (backSolve iupdate (k_H wk') (k_s wk')) (fun y =>
      bind (matTimesVec iupdate (k_V wk') y (k_w wk')) (fun w1 =>
      let '(e1, ok1, pv) := precon e' w1 (k_pv wk') in
      if negb ok1 then Ok (OReturn (GOut F_precon_fail i k relres0 G_update_precon) x e1) else
      bind (vmap2 (fadd A) x pv) (fun x' =>
      match f with
      | F_unconverged =>
        let '(e2, ok2, w2) := mvec e1 x' w1 in
        if negb ok2 then Ok (OReturn (GOut F_matvec_fail i k relres0 G_update_matvec) x' e2) else
        bind (vmap2 (fsub A) b w2) (fun r' =>
        let rn := norm2 r' in
        if negb (isfin rn) then Ok (OReturn (GOut F_inf_or_nan i k relres0 G_none) x' e2) else
        if fle A rn convTol then Ok (ODone F_success false i k x' w2 rn e2) else
        if fle A divTol' rn then Ok (ODone F_diverged (testTrueRnrm p) i k x' w2 rn e2) else
        if stagnated (stgTol p) x' pv then Ok (ODone F_stagnation (testTrueRnrm p) i k x' w2 rn e2) else
        outer_loop p kspace b bnrmInv convTol divTol' n' (S k) i k
          (Work (k_V wk') (k_H wk') y (k_giv wk') pv w2) x' r' rn e2)
      | _ => Ok (ODone f (testTrueRnrm p) i k x' w1 rnrm' e1)
      end)))
    end)))
  end.

(* std::max(a, b) *)
Definition fmax (a b : T) : T := if flt A a b then b else a.

(* the tail of solve: include/GMRESSolver.hpp:431-447 *)
Definition finish (b : list T) (bnrmInv convTol : T) (o : oresult) : outcome (gout * list T * Env) :=
  match o with
  | OReturn g x e => Ok (g, x, e)
  | ODone f test i k x w rnrm e =>
    let f1 := match f with F_unconverged => F_maxits | _ => f end in
    match f1, test with
    | F_success, true =>
      let '(e1, ok, w1) := mvec e x w in
      if ok then
        bind (vmap2 (fsub A) b w1) (fun r =>
        let rn := norm2 r in
        Ok (GOut (if isfin rn && flt A convTol rn then F_true_rnrm else f1) i k (fmul A bnrmInv rn) G_none, x, e1))
      else Ok (GOut f1 i k (fmul A bnrmInv rnrm) G_test_skipped, x, e1)
    | _, _ => Ok (GOut f1 i k (fmul A bnrmInv rnrm) G_none, x, e)
    end
  end.

(* GMRESSolver::solve: include/GMRESSolver.hpp:217-448 *)
Definition gmres (p : gparams) (b x : list T) (e : Env) : outcome (gout * list T * Env) :=
  if negb (checkParams p) then Throw else
  let N := length x in
  let kspace := Nat.min N (Z.to_nat (kspaceSz p)) in
  if negb (length b =? N) then UB else                     (* r = b with r of length N *)
  let w0 := map junk (seq 0 N) in
  let wk := Work (mkmat N (kspace + 1) junkm) (mkmat (kspace + 1) kspace junkm) (map junk (seq 0 (kspace + 1)))
                 (repeat (#0, #0) kspace) (map junk (seq 0 N)) w0 in
  let bnrm0 := norm2 b in
  let bnrm := if feq A bnrm0 #0 then #1 else bnrm0 in
  let bnrmInv := fdiv A #1 bnrm in
  let start (r : list T) (rnrm : T) (w : list T) (e : Env) :=
    if negb (isfin rnrm) then Ok (GOut F_inf_or_nan 0 0 #0 G_none, x, e) else
    let convTol := fmax (fmul A (relTol p) bnrm) (absTol p) in
    let divTol' := fmul A (divTol p) rnrm in
    if fle A rnrm convTol then Ok (GOut F_success 0 0 (fmul A bnrmInv rnrm) G_none, x, e) else
    bind (outer_loop p kspace b bnrmInv convTol divTol' (Z.to_nat (maxits p)) 0 0 0
            (Work (k_V wk) (k_H wk) (k_s wk) (k_giv wk) (k_pv wk) w) x r rnrm e)
         (finish b bnrmInv convTol) in
  if isNonzero x then
    let '(e1, ok, w) := mvec e x w0 in
    if negb ok then Ok (GOut F_matvec_fail 0 0 #0 G_init_matvec, x, e1) else
    bind (vmap2 (fsub A) b w) (fun r => start r (norm2 r) w e1)
  else start b bnrm0 w0 e.
End Gmres.
