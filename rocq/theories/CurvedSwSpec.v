(* CurvedSwSpec.v - the shallow water equations with a tracer, and their weak form on cubature and Gauss face nodes. *)
From Coq Require Import ZArith List Bool Arith.
From Verif Require Import Base Loops Num JacobiSpec DenseSpec TriModel TriSpec TriGeoSpec SwSpec Maps2DModel GaussFaceModel GaussFaceSpec CubMeshModel CubMeshSpec CurvedSwModel.
From Coq Require Import Reals.
Import ListNotations.
Local Open Scope R_scope.

(* depth, discharges, and depth times tracer *)
Definition cell4 := (cell * R)%type.
Definition depth (q : cell4) : R := part 0 (fst q).
Definition part4 (c : nat) (q : cell4) : R := if (c <? 3)%nat then part c (fst q) else snd q.
(* component c of the flux through a line with normal n: the tracer moves with the water *)
Definition through4 (g : R) (c : nat) (n : point) (q : cell4) : R :=
  if (c <? 3)%nat then through g c n (fst q) else snd q * ((fst n * part 1 (fst q) + snd n * part 2 (fst q)) / depth q).
Definition rusanov4 (g : R) (c : nat) (n : point) (lam : R) (a b : cell4) : R :=
  (through4 g c n a + through4 g c n b) / 2 + lam / 2 * (part4 c a - part4 c b).
Definition mirror4 (n : point) (q : cell4) : cell4 := (mirror n (fst q), snd q).
(* What the program adds to component c: Coriolis force, bottom drag CD |u| u and bottom slope. The drag of the second
   component has the opposite sign of the first (C50_python_drag_refuted). *)
Definition source4 (g CD f zx zy : R) (c : nat) (q : cell4) : R :=
  let '(h, hu, hv) := fst q in let u := hu / h in let v := hv / h in let s := sqrt (u * u + v * v) in
  match c with 1%nat => f * hv - CD * s * u - g * h * zx | 2%nat => - (f * hu) + CD * s * v - g * h * zy | _ => 0 end.

(* A solver for upper triangular systems (and their transposes, with true): raises exactly if the diagonal has a zero. *)
Definition upper (n : nat) (U : mat R) : Prop := shape U n n /\ forall i j, (j < i < n)%nat -> ment U i j = 0.
Definition triangular_solver (tri : bool -> mat R -> list R -> outcome (list R)) : Prop := forall n U b, upper n U -> length b = n ->
  ((exists i, (i < n)%nat /\ ment U i i = 0) -> forall t, tri t U b = Throw) /\
  ((forall i, (i < n)%nat -> ment U i i <> 0) -> forall t, exists x, tri t U b = Ok x /\ length x = n /\
     forall i, (i < n)%nat -> sumn n (fun j => (if t then ment U j i else ment U i j) * nth j x 0) = nth i b 0).

Section Weak.
(* nodes of an element, elements, Gauss points of a side; tables; the state *)
Variables (Np K NG : nat) (cc : cub_mesh R) (gf : gauss_faces R) (gmapP mapW : list nat) (q : four (mat R)).
(* the state that a row of interpolation weights gives on element k *)
Definition interpolated (row : nat -> R) (k : nat) : cell4 :=
  let v m := sumn Np (fun a => row a * ment m a k) in (v (q_h q), v (q_hu q), v (q_hv q), v (q_hN q)).
Definition cub_state (i k : nat) : cell4 := interpolated (ment (cc_V cc) i) k.
(* Gauss points are numbered as in the maps: point p lies on element p / (3 NG) *)
Definition gauss_state (p : nat) : cell4 := interpolated (ment (gf_interp gf) (p mod (3 * NG))) (p / (3 * NG)).
Definition gauss_n (p : nat) : point := (gauss_at NG (gf_nx gf) p, gauss_at NG (gf_ny gf) p).
Definition partner (p : nat) : nat := nth p gmapP 0%nat.
(* the state beyond point p: the mirrored one at walls, otherwise the one at the partner of p *)
Definition far_state (p : nat) : cell4 := if existsb (Nat.eqb p) mapW then mirror4 (gauss_n p) (gauss_state p) else gauss_state (partner p).
(* the largest wave speed met on either side of the side that p lies on *)
Definition side_speed (g : R) (p : nat) (lam : R) : Prop := is_max (fun v => exists p', (p' < 3 * NG * K)%nat /\ (p' / NG = p / NG)%nat /\
  (v = wave_speed g (fst (gauss_state p')) \/ v = wave_speed g (fst (gauss_state (partner p'))))) lam.
Definition point_flux (g : R) (c p : nat) (v : R) : Prop :=
  exists lam, side_speed g p lam /\ v = rusanov4 g c (gauss_n p) lam (gauss_state p) (far_state p).

(* the gradient at cubature point i, and the value at Gauss point j, of the function with nodal values phi on element k *)
Definition cub_gradient (phi : nat -> R) (i k : nat) : point :=
  let m := cc_metric cc in let dr := sumn Np (fun a => ment (cc_Dr cc) i a * phi a) in let ds := sumn Np (fun a => ment (cc_Ds cc) i a * phi a) in
  (ment (g_rx m) i k * dr + ment (g_sx m) i k * ds, ment (g_ry m) i k * dr + ment (g_sy m) i k * ds).
Definition gauss_value (phi : nat -> R) (j : nat) : R := sumn Np (fun a => ment (gf_interp gf) j a * phi a).
(* the volume term and the side terms of component c on element k, tested with phi, for fluxes F at the Gauss points *)
Definition volume_term (g : R) (c k : nat) (phi : nat -> R) : R :=
  sumn (cc_n cc) (fun i => ment (cc_W cc) i k * through4 g c (cub_gradient phi i k) (cub_state i k)).
Definition side_terms (F : nat -> R) (k : nat) (phi : nat -> R) : R :=
  sumn (3 * NG) (fun j => ment (gf_W gf) j k * gauss_value phi j * F (j + 3 * NG * k)%nat).

(* The rates z satisfy the weak form with the given mass matrices. *)
Definition node_state (a k : nat) : cell4 := (ment (q_h q) a k, ment (q_hu q) a k, ment (q_hv q) a k, ment (q_hN q) a k).
Definition weak_scheme (mass : nat -> mat R) (g CD f : R) (zx zy : mat R) (z : four (mat R)) : Prop :=
  forall c, (c < 4)%nat -> exists F, (forall p, (p < 3 * NG * K)%nat -> point_flux g c p (F p)) /\
  forall k phi, (k < K)%nat ->
    sumn Np (fun a => sumn Np (fun b => phi a * ment (mass k) a b * (ment (pick c z) b k - source4 g CD f (ment zx b k) (ment zy b k) c (node_state b k))))
    = volume_term g c k phi - side_terms F k phi.
(* total of a field over the mesh *)
Definition total (mass : nat -> mat R) (m : mat R) : R := sumn K (fun k => sumn Np (fun a => sumn Np (fun b => ment (mass k) a b * ment m b k))).
End Weak.

(* The tables fit together. On a curved element the mass matrix is the one whose Cholesky factor is stored; on a straight
   one, with constant Jacobian j, it is the inverse of V V^T / j. *)
Record curved_tables (Np K NG : nat) (V J : mat R) (cc : cub_mesh R) (gf : gauss_faces R) (curved gmapM gmapP mapW : list nat) (mass : nat -> mat R) : Prop := {
  ct_some : (1 <= NG)%nat;
  ct_V : shape V Np Np; ct_J : shape J Np K;
  ct_cub : forall m, In m [cc_V cc; cc_Dr cc; cc_Ds cc] -> shape m (cc_n cc) Np;
  ct_met : forall m, In m [cc_W cc; g_rx (cc_metric cc); g_ry (cc_metric cc); g_sx (cc_metric cc); g_sy (cc_metric cc)] -> shape m (cc_n cc) K;
  ct_gauss : forall m, In m [gf_nx gf; gf_ny gf; gf_W gf] -> shape m (3 * NG) K;
  ct_interp : shape (gf_interp gf) (3 * NG) Np;
  ct_mapM : gmapM = seq 0 (3 * NG * K);
  ct_mapP : length gmapP = (3 * NG * K)%nat /\ forall p, In p gmapP -> (p < 3 * NG * K)%nat;
  ct_walls : hfind (gf_bc gf) 3 = Some mapW;
  ct_wall : forall p, In p mapW -> (p < 3 * NG * K)%nat /\ partner gmapP p = p;
  ct_curved : forall k, (k < K)%nat -> In k curved -> exists U, nth_error (cc_chol cc) k = Some U /\ cholesky_of Np (mass k) U /\ forall i, (i < Np)%nat -> ment U i i <> 0;
  ct_inside : forall k, In k curved -> (k < K)%nat;
  ct_straight : forall k, (k < K)%nat -> ~ In k curved -> exists j, j <> 0 /\ (forall a, (a < Np)%nat -> ment J a k = j) /\
    forall a c, (a < Np)%nat -> (c < Np)%nat -> sumn Np (fun b => ment (mass k) a b * sumn Np (fun n => ment V b n * ment V c n)) = if (a =? c)%nat then j else 0 }.

(* The mass matrices of a mesh: on curved elements the one computed at the cubature points, on the others the one of the
   nodal basis, J Vinv^T Vinv. *)
Definition straight_mass (Vert : list R) (EToV : list nat) (el : element (T := R)) (k : nat) : mat R :=
  let n := length (e_r el) in mkmat n n (fun a b => cell_area Vert EToV k / 2 * sumn n (fun c => ment (e_Vinv el) c a * ment (e_Vinv el) c b)).
Definition mesh_mass (Vert : list R) (EToV : list nat) (el : element (T := R)) (cc : cub_mesh R) (curved : list nat) (k : nat) : mat R :=
  if existsb (Nat.eqb k) curved then nth k (cc_MM cc) (mkmat 0 0 (fun _ _ => 0)) else straight_mass Vert EToV el k.

(* Constants are interpolated and differentiated exactly. *)
Record keeps_constants (Np NG : nat) (cc : cub_mesh R) (gf : gauss_faces R) : Prop := {
  kc_Dr : forall i, (i < cc_n cc)%nat -> sumn Np (fun a => ment (cc_Dr cc) i a) = 0;
  kc_Ds : forall i, (i < cc_n cc)%nat -> sumn Np (fun a => ment (cc_Ds cc) i a) = 0;
  kc_V : forall i, (i < cc_n cc)%nat -> sumn Np (fun a => ment (cc_V cc) i a) = 1;
  kc_I : forall j, (j < 3 * NG)%nat -> sumn Np (fun a => ment (gf_interp gf) j a) = 1 }.
(* Sides are matched in pairs, point by point, with opposite unit normals and equal weights; the other points are walls. *)
Record closed_pairs (K NG : nat) (gf : gauss_faces R) (gmapP mapW : list nat) : Prop := {
  cp_back : forall p, (p < 3 * NG * K)%nat -> partner gmapP (partner gmapP p) = p;
  cp_sides : forall p p', (p < 3 * NG * K)%nat -> (p' < 3 * NG * K)%nat -> (p / NG = p' / NG)%nat -> (partner gmapP p / NG = partner gmapP p' / NG)%nat;
  cp_normal : forall p, (p < 3 * NG * K)%nat -> partner gmapP p <> p ->
    gauss_n NG gf (partner gmapP p) = (- fst (gauss_n NG gf p), - snd (gauss_n NG gf p)) /\ gauss_at NG (gf_W gf) (partner gmapP p) = gauss_at NG (gf_W gf) p;
  cp_unit : forall p, In p mapW -> fst (gauss_n NG gf p) * fst (gauss_n NG gf p) + snd (gauss_n NG gf p) * snd (gauss_n NG gf p) = 1;
  cp_closed : forall p, (p < 3 * NG * K)%nat -> partner gmapP p = p -> In p mapW }.
