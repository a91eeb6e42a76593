(* CurvedSwModel.v - sw2dComputeRHS_curved (swhelpers/rhs.py:6-176) with sw2dComputeFluxes (swhelpers/flux.py): the shallow
   water right-hand side with a tracer, in weak form on cubature and Gauss face nodes. Whole-array expressions of numpy are entrywise; arrays whose shapes do not fit are UB here (numpy would
   raise an exception or stretch an axis of length one); indices are not negative, and one that is too large raises. *)
From Coq Require Import ZArith List Bool Arith.
From Verif Require Import Base Loops Num Nodes1DModel TriModel Maps2DModel RKModel Line1DModel SwModel GaussFaceModel CubMeshModel.
Import ListNotations.
Local Open Scope nat_scope.

Declare Scope cs_scope.
Section Curved.
Context {T : Type} (A : arith T).
Variable hypot : T -> T -> T.                                    (* numpy.hypot *)
(* scipy.linalg.solve_triangular with an upper triangular matrix; true is trans='T' *)
Variable tri : bool -> mat T -> list T -> outcome (list T).
Local Notation "a + b" := (fadd A a b) : cs_scope.
Local Notation "a - b" := (fsub A a b) : cs_scope.
Local Notation "a * b" := (fmul A a b) : cs_scope.
Local Notation "a / b" := (fdiv A a b) : cs_scope.
Declare Scope cs_scope.
Delimit Scope cs_scope with cs.
Local Notation mzip := Line1DModel.mzip.

(* depth, the two discharges, depth times tracer *)
Record four (X : Type) := Four { q_h : X; q_hu : X; q_hv : X; q_hN : X }.
Arguments Four {X}. Arguments q_h {X}. Arguments q_hu {X}. Arguments q_hv {X}. Arguments q_hN {X}.
Definition pick {X} (c : nat) (q : four X) : X := match c with 0 => q_h q | 1 => q_hu q | 2 => q_hv q | _ => q_hN q end.
Definition fmap4 {X Y} (f : X -> Y) (q : four X) : four Y := Four (f (q_h q)) (f (q_hu q)) (f (q_hv q)) (f (q_hN q)).
Definition bind4 {X Y} (f : X -> outcome Y) (q : four X) : outcome (four Y) :=
  bind (f (q_h q)) (fun a => bind (f (q_hu q)) (fun b => bind (f (q_hv q)) (fun c => bind (f (q_hN q)) (fun d => Ok (Four a b c d))))).

(* swhelpers/flux.py:1-23, at one point: component c of the fluxes in x and in y *)
Definition flux_F (g : T) (c : nat) (q : four T) : T :=
  let u := (q_hu q / q_h q)%cs in
  match c with 0 => q_hu q | 1 => (q_hu q * u + half A * g * q_h q * q_h q)%cs | 2 => (q_hv q * u)%cs | _ => (q_hN q * u)%cs end.
Definition flux_G (g : T) (c : nat) (q : four T) : T :=
  let v := (q_hv q / q_h q)%cs in
  match c with 0 => q_hv q | 1 => (q_hu q * v)%cs | 2 => (q_hv q * v + half A * g * q_h q * q_h q)%cs | _ => (q_hN q * v)%cs end.
Definition at4 (q : four (mat T)) (i k : nat) : four T := fmap4 (fun m => ment m i k) q.
Definition nth4 (q : four (list T)) (i : nat) : four T := fmap4 (fun l => nth i l (fofn A 0)) q.
Definition fluxes_mat (f : four T -> T) (q : four (mat T)) : mat T := mkmat (mrows (q_h q)) (mcols (q_h q)) (fun i k => f (at4 q i k)).
Definition fluxes_vec (f : four T -> T) (q : four (list T)) : list T := map (fun i => f (nth4 q i)) (seq 0 (length (q_h q))).

(* X.flatten('F'), np.reshape(x, (r, c), order='F') and x[index] *)
Definition mcol (m : mat T) (k : nat) : list T := map (fun i => ment m i k) (seq 0 (mrows m)).
Definition flattenF (m : mat T) : list T := flat_map (mcol m) (seq 0 (mcols m)).
Definition reshapeF (r c : nat) (x : list T) : outcome (mat T) :=
  if length x =? r * c then Ok (mkmat r c (fun i k => nth (i + r * k)%nat x (fofn A 0))) else Throw.
Definition take (x : list T) (index : list nat) : outcome (list T) :=
  if forallb (fun i => i <? length x) index then Ok (map (fun i => nth i x (fofn A 0)) index) else Throw.

(* rhs.py:83-84: the far discharges at the wall points become the mirrored near ones *)
Definition mirrored (two : T) (n1 n2 n q1 q2 q : T) : T := (q - two * n * (q1 * n1 + q2 * n2))%cs.
Definition reflect (mapW : list nat) (nx ny : list T) (qM qP : four (list T)) : outcome (four (list T)) :=
  if forallb (fun i => (i <? length nx) && (i <? length (q_hu qP))) mapW then
    let at_ (l : list T) i := nth i l (fofn A 0) in
    let put n q (p : list T) := map (fun i => if existsb (Nat.eqb i) mapW
      then mirrored (two A) (at_ nx i) (at_ ny i) (at_ n i) (at_ (q_hu qM) i) (at_ (q_hv qM) i) (at_ q i) else at_ p i) (seq 0 (length p)) in
    Ok (Four (q_h qP) (put nx (q_hu qM) (q_hu qP)) (put ny (q_hv qM) (q_hv qP)) (q_hN qP))
  else Throw.

(* rhs.py:89-92: the wave speed at every point, and the larger of two; NaN, which numpy's maximum would pass on, apart *)
Definition speeds_of (g : T) (q : four (list T)) : list T := map (fun i => let x := nth4 q i in speed A g (q_h x) (q_hu x) (q_hv x)) (seq 0 (length (q_h q))).
(* rhs.py:98-100: the largest entry of every run of Nfp entries, in the place of each *)
Definition side_max (Nfp : nat) (l : list T) : outcome (list T) :=
  if Nfp =? 0 then Throw else                                    (* np.max of an empty axis *)
  Ok (map (fun i => let s := i / Nfp in fold_left (fun a j => fmax A a (nth (Nfp * s + j)%nat l (fofn A 0))) (seq 1 (Nfp - 1)) (nth (Nfp * s)%nat l (fofn A 0)))
        (seq 0 (length l))).

(* --- the weak form --- *)
(* rhs.py:20-45: the volume term of one component *)
Definition weak_volume (cc : cub_mesh T) (F G : mat T) : mat T :=
  let m := cc_metric cc in
  let tmpr := mzip (fmul A) (cc_W cc) (mzip (fadd A) (mzip (fmul A) (g_rx m) F) (mzip (fmul A) (g_ry m) G)) in
  let tmps := mzip (fmul A) (cc_W cc) (mzip (fadd A) (mzip (fmul A) (g_sx m) F) (mzip (fmul A) (g_sy m) G)) in
  mzip (fadd A) (mmul A (mtrans (cc_Dr cc)) tmpr) (mmul A (mtrans (cc_Ds cc)) tmps).
(* rhs.py:127-130: the flux of one component through the sides *)
Definition weak_flux (fm fp gm gp nx ny lam d : T) : T := (half A * ((fm + fp) * nx + (gm + gp) * ny + lam * d))%cs.
(* rhs.py:102-136 *)
Definition weak_sides (g : T) (gf : gauss_faces T) (c : nat) (qM qP : four (list T)) (lam : mat T) (K Nfp3 : nat) : outcome (mat T) :=
  bind (reshapeF Nfp3 K (zipw (fsub A) (pick c qM) (pick c qP))) (fun d =>
  bind (reshapeF Nfp3 K (fluxes_vec (flux_F g c) qM)) (fun FM => bind (reshapeF Nfp3 K (fluxes_vec (flux_G g c) qM)) (fun GM =>
  bind (reshapeF Nfp3 K (fluxes_vec (flux_F g c) qP)) (fun FP => bind (reshapeF Nfp3 K (fluxes_vec (flux_G g c) qP)) (fun GP =>
  let flux := mkmat Nfp3 K (fun i k => weak_flux (ment FM i k) (ment FP i k) (ment GM i k) (ment GP i k) (ment (gf_nx gf) i k) (ment (gf_ny gf) i k) (ment lam i k) (ment d i k)) in
  Ok (mmul A (mtrans (gf_interp gf)) (mzip (fmul A) (gf_W gf) flux))))))).
(* rhs.py:149-162: the inverse mass matrix; the columns of the curved elements are overwritten *)
Definition set_col (m : mat T) (k : nat) (x : list T) : mat T := mkmat (mrows m) (mcols m) (fun i j => if j =? k then nth i x (fofn A 0) else ment m i j).
Definition mass_inverse (V J : mat T) (chol : list (mat T)) (curved : list nat) (M : mat T) : outcome (mat T) :=
  each (fun k R =>
      bind (match nth_error chol k with Some U => Ok U | None => Throw end) (fun U =>
      bind (tri true U (mcol M k)) (fun y => bind (tri false U y) (fun x => Ok (set_col R k x)))))
    curved (mmul A (mmul A V (mtrans V)) (mzip (fdiv A) M J)).
(* rhs.py:165-174 *)
Definition add_sources (g CD f : T) (q : four (mat T)) (zx zy : mat T) (R : four (mat T)) : four (mat T) :=
  Four (q_h R) (with_source (py_source_x A hypot g CD f) (q_h q) (q_hu q) (q_hv q) zx (q_hu R))
    (with_source (py_source_y A hypot g CD f) (q_h q) (q_hu q) (q_hv q) zy (q_hv R)) (q_hN R).

Definition four_conform (q : four (mat T)) (r c : nat) : bool :=
  conform (q_h q) r c && conform (q_hu q) r c && conform (q_hv q) r c && conform (q_hN q) r c.
Definition curved_conform (V J : mat T) (cc : cub_mesh T) (gf : gauss_faces T) (Np K nc ng : nat) : bool :=
  conform V Np Np && conform J Np K && conform (cc_V cc) nc Np && conform (cc_Dr cc) nc Np && conform (cc_Ds cc) nc Np && conform (cc_W cc) nc K &&
  conform (g_rx (cc_metric cc)) nc K && conform (g_ry (cc_metric cc)) nc K && conform (g_sx (cc_metric cc)) nc K && conform (g_sy (cc_metric cc)) nc K &&
  conform (gf_nx gf) ng K && conform (gf_ny gf) ng K && conform (gf_W gf) ng K && conform (gf_interp gf) ng Np.

(* rhs.py:6-176 sw2dComputeRHS_curved. CD is a matrix there or a number; it is a number here. H, and zx and zy at the
   cubature points, are computed and not used. curvedEls is made a set: the order of its members does not matter. *)
Definition curved_rhs (V J : mat T) (cc : cub_mesh T) (gf : gauss_faces T) (curved gmapM gmapP : list nat) (g CD f : T)
  (zx zy : mat T) (q : four (mat T)) : outcome (four (mat T)) :=
  let Np := mrows V in let K := mcols J in let nc := cc_n cc in let ng := mrows (gf_nx gf) in
  require (curved_conform V J cc gf Np K nc ng && four_conform q Np K && conform zx Np K && conform zy Np K)
  (let qc := fmap4 (mmul A (cc_V cc)) q in
  let volume c := weak_volume cc (fluxes_mat (flux_F g c) qc) (fluxes_mat (flux_G g c) qc) in
  match hfind (gf_bc gf) 3 with
  | None => Throw                                                (* BCmap[3] *)
  | Some mapW =>
    let nx := flattenF (gf_nx gf) in let ny := flattenF (gf_ny gf) in
    let qg := fmap4 (fun m => flattenF (mmul A (gf_interp gf) m)) q in
    bind (bind4 (fun v => take v gmapM) qg) (fun qM => bind (bind4 (fun v => take v gmapP) qg) (fun qP =>
    let spd := zipw (fmax A) (speeds_of g qM) (speeds_of g qP) in
    bind (reflect mapW nx ny qM qP) (fun qP =>
    let Nfp := ng / 3 in
    bind (side_max Nfp spd) (fun lam => bind (reshapeF (Nfp * 3) K lam) (fun lam =>
    let component c :=
      bind (weak_sides g gf c qM qP lam K (Nfp * 3)) (fun S =>
      mass_inverse V J (cc_chol cc) curved (mzip (fsub A) (volume c) S)) in
    bind (component 0) (fun R0 => bind (component 1) (fun R1 => bind (component 2) (fun R2 => bind (component 3) (fun R3 =>
    Ok (add_sources g CD f q zx zy (Four R0 R1 R2 R3)))))))))))
  end).
End Curved.
Arguments Four {X}. Arguments q_h {X}. Arguments q_hu {X}. Arguments q_hv {X}. Arguments q_hN {X}.
