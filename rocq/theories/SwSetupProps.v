(* SwSetupProps.v - C83: what src/sw2d sets up before its time loop: depth, bed slopes, open boundary, sponge layer. *)
From Coq Require Import String ZArith List Lia Bool Arith Ascii.
From Verif Require Import Base Loops Num JacobiSpec BlitzModel Nodes1DModel DenseModel DenseSpec MeshSpec CsvModel CsvSpec CsvProps TriModel TriSpec TriGeoSpec TriSetup TriProps TriWitness JacobiExactProofs UniqueProofs Maps2DModel Maps2DSpec Maps2DProps TriMapsProofs TriMapsProps TriDGSpec TriDGProofs TriOpProofs QuadInterpProofs
  RKModel Line1DModel SwModel SwSpec SwProofs SwSchemeProofs SwRunProofs SwProps SwStepModel SwStepProps BlitzSpec SwSetupModel SwSetupSpec SwDepthProofs SwSetupProofs.
From Coq Require Import Reals Lra.
Import ListNotations.
Local Open Scope list_scope.
Local Open Scope R_scope.

(* ---------- the depth file ---------- *)
(* A file of at most Np*K numbers, one a line, becomes the depth of the nodes, element after element; the nodes it does
   not reach and those less than 150 deep get depth 150. In any arithmetic. *)
Theorem C83_depth {T} (A : arith T) (conv : kind T) t (H : mat T) vs : small_text t -> column conv t vs -> (length vs <= mrows H * mcols H)%nat ->
  exists H', readDepthData A conv (Some t) H = Ok H' /\ mrows H' = mrows H /\ mcols H' = mcols H /\
    forall n k, (n < mrows H)%nat -> (k < mcols H)%nat ->
      let v := nth (k * mrows H + n) vs (fofZ A 0%Z) in ment H' n k = if flt A v (fofZ A 150%Z) then fofZ A 150%Z else v.
Proof. intros Hs Hc Hl. apply (proj1 (read_depth_ok A conv t H Hs) vs Hc Hl). Qed.
(* so no depth is below 150 *)
Corollary C83_depth_floor {T} (A : arith T) (conv : kind T) t (H : mat T) vs H' : flt A (fofZ A 150%Z) (fofZ A 150%Z) = false ->
  small_text t -> column conv t vs -> (length vs <= mrows H * mcols H)%nat -> readDepthData A conv (Some t) H = Ok H' ->
  forall n k, (n < mrows H)%nat -> (k < mcols H)%nat -> flt A (ment H' n k) (fofZ A 150%Z) = false.
Proof.
  intros Hi Hs Hc Hl HE n k Hn Hk. destruct (C83_depth A conv t H vs Hs Hc Hl) as (H2 & E & _ & _ & HH). rewrite E in HE. injection HE as <-.
  specialize (HH n k Hn Hk). cbv zeta in HH. rewrite HH. destruct (flt A (nth (k * mrows H + n) vs (fofZ A 0%Z)) (fofZ A 150%Z)) eqn:EF; [exact Hi|exact EF].
Qed.
(* A file with more numbers than nodes is written past the end of the buffer. *)
Theorem C83_depth_too_long_refuted {T} (A : arith T) (conv : kind T) t (H : mat T) vs : small_text t -> column conv t vs -> (mrows H * mcols H < length vs)%nat ->
  readDepthData A conv (Some t) H = UB.
Proof. intros Hs Hc Hl. apply (proj1 (proj2 (read_depth_ok A conv t H Hs)) vs Hc Hl). Qed.
(* A file that is not a column of numbers is refused, provided it has no more lines than there are nodes. *)
Theorem C83_depth_bad {T} (A : arith T) (conv : kind T) t (H : mat T) e : small_text t -> (forall vs, ~ column conv t vs) -> entries t e -> (e <= mrows H * mcols H)%nat ->
  readDepthData A conv (Some t) H = Throw.
Proof. intros Hs Hc He Hl. apply (proj2 (proj2 (read_depth_ok A conv t H Hs)) Hc e He Hl). Qed.
(* So is a file that cannot be opened. *)
Theorem C83_depth_missing {T} (A : arith T) (conv : kind T) (H : mat T) : readDepthData A conv None H = Throw.
Proof. reflexivity. Qed.

Definition digits : kind R := match digit_kind with KNum f => KNum (fun s => match f s with Some (n, l) => Some (100 * INR n, l) | None => None end) | _ => KNum (fun _ => None) end.
Definition depths : str := text ("2" ++ nl ++ nl ++ " 1 " ++ nl ++ "3" ++ nl)%string.
Definition two_columns : str := text ("1 2" ++ nl ++ "3" ++ nl)%string.
Example C83_depth_witness G : small_text depths /\ column digits depths [100 * INR 2; 100 * INR 1; 100 * INR 3] /\
  small_text two_columns /\ entries two_columns 2 /\ (forall vs, ~ column digits two_columns vs) /\
  flt (exact G) (fofZ (exact G) 150%Z) (fofZ (exact G) 150%Z) = false.
Proof.
  assert (L1 : lines_of depths [text "2"; []; text " 1 "; text "3"]).
  { apply (lines_cons (text "2") (text (nl ++ " 1 " ++ nl ++ "3" ++ nl)%string)); [cbn; intuition discriminate|]. apply (lines_cons []); [cbn; auto|].
    apply (lines_cons (text " 1 ") (text ("3" ++ nl)%string)); [cbn; intuition discriminate|]. apply (lines_cons (text "3") []); [cbn; intuition discriminate|]. constructor. }
  assert (R1 : rows_of ["009"; " "]%char [text "2"; []; text " 1 "; text "3"] [[["2"]]; [["1"]]; [["3"]]]%char).
  { apply rows_row with (text "2"). { intro B. apply CsvProofs.trim_nil in B. vm_compute in B. discriminate. } { exact (CsvProofs.trim_trimmed (text "2")). } { exact (CsvProofs.tokenizeLine_fields ["009"; " "]%char (text "2")). }
    apply rows_blank; [constructor|]. apply rows_row with (text "1"). { intro B. apply CsvProofs.trim_nil in B. vm_compute in B. discriminate. } { exact (CsvProofs.trim_trimmed (text " 1 ")). } { exact (CsvProofs.tokenizeLine_fields ["009"; " "]%char (text "1")). }
    apply rows_row with (text "3"). { intro B. apply CsvProofs.trim_nil in B. vm_compute in B. discriminate. } { exact (CsvProofs.trim_trimmed (text "3")). } { exact (CsvProofs.tokenizeLine_fields ["009"; " "]%char (text "3")). } constructor. }
  assert (L2 : lines_of two_columns [text "1 2"; text "3"]).
  { apply (lines_cons (text "1 2") (text ("3" ++ nl)%string)); [cbn; intuition discriminate|]. apply (lines_cons (text "3") []); [cbn; intuition discriminate|]. constructor. }
  assert (R2 : rows_of ["009"; " "]%char [text "1 2"; text "3"] [[["1"]; ["2"]]; [["3"]]]%char).
  { apply rows_row with (text "1 2"). { intro B. apply CsvProofs.trim_nil in B. vm_compute in B. discriminate. } { exact (CsvProofs.trim_trimmed (text "1 2")). } { exact (CsvProofs.tokenizeLine_fields ["009"; " "]%char (text "1 2")). }
    apply rows_row with (text "3"). { intro B. apply CsvProofs.trim_nil in B. vm_compute in B. discriminate. } { exact (CsvProofs.trim_trimmed (text "3")). } { exact (CsvProofs.tokenizeLine_fields ["009"; " "]%char (text "3")). } constructor. }
  split; [vm_compute; reflexivity|]. split.
  { apply (column_rows digits depths _ _ _ L1 R1). split; [discriminate|]. repeat constructor; (eexists; split; [reflexivity|]); reflexivity. }
  split; [vm_compute; reflexivity|]. split; [exists [text "1 2"; text "3"], [[["1"]; ["2"]]; [["3"]]]%char; split; [exact L2|]; split; [exact R2|reflexivity]|].
  split; [|apply Rltb_irrefl || (unfold exact, flt, Rltb; destruct (Rlt_dec _ _); [exfalso; lra|reflexivity])].
  intros vs Hc. apply (column_rows digits two_columns vs _ _ L2 R2) in Hc as (_ & Hc). inversion Hc as [|? ? ? ? (f & E & _) _]. discriminate.
Qed.

(* ---------- bed slopes ---------- *)
Section C83.
Context (G : R -> R) (solve : mat R -> mat R -> mat R -> outcome (mat R)) (inverse : mat R -> mat R -> outcome (mat R))
  (junk : nat -> nat -> R) (eps : R) (eig : nat -> (nat -> nat -> R) -> list R * (nat -> nat -> R)) (tol : R)
  (sort : (nat -> nat -> bool) -> list nat -> list nat) (junk1 : nat -> R) (junkn : nat -> nat)
  (N K : nat) (Vert : list R) (EToV E2E E2F : list nat) (bcType : list Z) (el : element (T := R)) (m : maps).
Variables (jk : nat -> nat -> R) (jv : nat -> R) (lowest : R).     (* uninitialised storage; the start of a maximum *)
Local Notation Grid := (sw_grid G solve inverse junk eps eig tol sort junk1 junkn N K Vert EToV E2E E2F bcType el m).
Local Notation Np := (length (e_r el)).
Local Notation d := (tables_of el m).
Local Notation tagged bc t := (exists k f, (k < K)%nat /\ (f < 3)%nat /\ tag_of bc k f = t).
Local Notation untagged bc t := (forall k f, (k < K)%nat -> (f < 3)%nat -> tag_of bc k f <> t).
Local Notation node i k := (node_at (e_x el) (e_y el) i k).

(* Before filtering, the slopes at a node are the derivatives there of the polynomial through the depths of the element. *)
Theorem C83_bed_slopes : Grid -> forall H k p, (k < K)%nat -> interpolant N Np (e_x el) (e_y el) H k p ->
  forall i, (i < Np)%nat -> let s := bed_slopes (exact G) d Np K H in
  dr_is (eval2 p) (fst (node i k)) (snd (node i k)) (ment (fst s) i k) /\ ds_is (eval2 p) (fst (node i k)) (snd (node i k)) (ment (snd s) i k).
Proof.
  intros [HB HM HA HS Hrun Hbc] H k p Hk Hp i Hi s. destruct (slopes_ok _ _ _ _ _ _ _ _ _ _ _ _ HB _ _ HA _ _ _ _ _ Hrun Hbc H k p Hk Hp i Hi) as (E1 & E2).
  unfold s. rewrite E1, E2. split; [apply ddr_ok|apply dds_ok].
Qed.
(* The two filter statements read rows they have already overwritten (C78): the slopes used are the filtered ones only
   where C78_filter_in_place says so; a filter that does nothing leaves the slopes alone. *)
Theorem C83_slopes_unfiltered F s n : shape F n n -> mrows (fst s) = n -> mrows (snd s) = n -> (forall i j, (i < n)%nat -> (j < n)%nat -> ment F i j = if (i =? j)%nat then 1 else 0) ->
  forall i k, (i < n)%nat -> ((k < mcols (fst s))%nat -> ment (fst (filtered_slopes (exact G) F s)) i k = ment (fst s) i k) /\ ((k < mcols (snd s))%nat -> ment (snd (filtered_slopes (exact G) F s)) i k = ment (snd s) i k).
Proof.
  intros (F1 & F2) S1 S2 HI i k Hi. unfold filtered_slopes. cbn [fst snd]. split; intro Hk; eapply SwStepProofs.in_place_id with (n := n); eauto.
Qed.

(* ---------- open sides ---------- *)
(* The driver opens exactly the sides both ends of which are among the open vertices; the other tags stay. *)
Theorem C83_tags : Grid -> forall opn, exists bc' d', tag_open opn EToV K bcType = Ok bc' /\ length bc' = length bcType /\
  (forall k f, (k < K)%nat -> (f < 3)%nat -> tag_of bc' k f = if open_side opn EToV k f then 2%Z else tag_of bcType k f) /\
  retagged junkn opn EToV 3 (S N) K bcType d = Ok d'.
Proof.
  intros [HB HM HA HS Hrun Hbc] opn. destruct (retag_ok _ _ _ _ _ _ _ _ _ _ _ _ HB _ _ HM _ _ _ _ _ Hrun Hbc opn) as (bc' & bc & m' & Et & L & Htag & Er & _).
  exists bc', (with_bc d bc). auto.
Qed.
(* The boundary table still holds the tags the mesh came with, the sides opened since included. It makes no difference:
   the right-hand side is the scheme with walls at the sides whose tag is 3 now and the tide at those whose tag is 2. *)
Theorem C83_scheme : Grid -> lowest <= 0 -> forall opn bc' d', tag_open opn EToV K bcType = Ok bc' -> retagged junkn opn EToV 3 (S N) K bcType d = Ok d' ->
  tagged bc' 3%Z -> tagged bc' 2%Z ->
  forall g CD f0 tide H Hx Hy q, state_conform q Np K = true -> state_conform (H, Hx, Hy) Np K = true ->
  (forall i k, (i < Np)%nat -> (k < K)%nat -> 0 < part 0 (at_node q i k)) ->
  (forall i k i2 k2, (i < Np)%nat -> (k < K)%nat -> (i2 < Np)%nat -> (k2 < K)%nat -> node i k = node i2 k2 -> ment H i k = ment H i2 k2) ->
  (forall i k f, (i < Np)%nat -> (k < K)%nat -> (f < 3)%nat -> tag_of bc' k f = 2%Z -> 0 < ment H i k + tide) ->
  exists z r, sw_rhs (exact G) jk jv lowest d' 3 (S N) Np K g CD f0 tide H Hx Hy q = Ok z /\ state_conform z Np K = true /\
    dg_scheme N Np K Vert EToV (e_x el) (e_y el) g q (walls_and_tide bc' H tide) (global_speed Np K Vert EToV (e_x el) (e_y el) g q (walls_and_tide bc' H tide)) r /\
    forall c i k, (c < 3)%nat -> (i < Np)%nat -> (k < K)%nat ->
      ment (fieldc c z) i k = ment (fieldc c r) i k + source g CD f0 (ment Hx i k) (ment Hy i k) c (at_node q i k).
Proof.
  intros HG Hlow opn bc2 d2 Et2 Er2 H3 H2 g CD f0 tide H Hx Hy q HQ HH Hwet Hc Ht. pose proof HG as [HB HM HA HS Hrun Hbc].
  destruct (retag_ok _ _ _ _ _ _ _ _ _ _ _ _ HB _ _ HM _ _ _ _ _ Hrun Hbc opn) as (bc' & bc & m' & Et & L & Htag & Er & Hrun' & Ed & _ & HF).
  rewrite Et in Et2. injection Et2 as <-. rewrite Er in Er2. injection Er2 as <-.
  assert (HG' : sw_grid G solve inverse junk eps eig tol sort junk1 junkn N K Vert EToV E2E E2F bc' el m') by (constructor; try assumption; lia).
  destruct (C49_full_scheme G solve inverse junk eps eig tol sort junk1 junkn N K Vert EToV E2E E2F bc' el m' jk jv lowest HG' Hlow H3 H2 g CD f0 tide H Hx Hy q HQ HH Hwet Hc Ht) as (z & r & Ez & Cz & Hs & Hd).
  exists z, r. split; [|auto]. rewrite <- Ez, Ed.
  assert (Hb' : (3 * K <= length bc')%nat) by lia.
  destruct (hash_at _ _ _ _ _ _ _ _ _ _ _ _ HB _ _ HM _ _ _ _ _ Hrun' Hb' 2%Z ltac:(discriminate)) as (O' & _ & _ & FO' & _). specialize (FO' H2).
  destruct (hash_at _ _ _ _ _ _ _ _ _ _ _ _ HB _ _ HM _ _ _ _ _ Hrun' Hb' 3%Z ltac:(discriminate)) as (W' & _ & _ & FW' & _). specialize (FW' H3).
  destruct (HF O' FO' W' FW') as (O & W & FO & FW & B & EO & EW). clear HF.
  pose proof (maps_bounds _ _ _ _ _ _ _ _ _ _ _ _ HB _ _ HM HA HS _ _ _ _ _ _ Hrun) as (LM & LP & BM & BP).
  assert (HN0 : (0 < Np)%nat) by (pose proof (fn_lt _ _ _ _ _ _ _ _ _ _ _ _ HB 0%nat 0%nat ltac:(lia) ltac:(lia)); lia).
  apply (same_rhs (exact G) jk jv lowest d bc (m_bc m') W O W' O' 3 (S N) Np K); try assumption; try lia.
  apply (conform_d _ _ _ _ _ _ _ _ _ _ _ _ HB m).
Qed.

(* ---------- the sponge ---------- *)
(* For orders up to 4 and radii up to 10^12, the sponge coefficient falls off linearly with the distance to the nearest
   node of an open side, from the given strength to 0 at the given radius; further away it keeps its value. *)
Theorem C83_sponge : Grid -> (N <= 4)%nat -> forall opn bc' d', tag_open opn EToV K bcType = Ok bc' -> retagged junkn opn EToV 3 (S N) K bcType d = Ok d' ->
  tagged bc' 2%Z -> forall strength rad C, rad <= 10 ^ 12 -> shape C Np K ->
  exists C', sponge_coeff (exact G) rhypot jv d' 3 (S N) Np K (e_x el) (e_y el) strength rad C = Ok C' /\ shape C' Np K /\
    forall n k, (n < Np)%nat -> (k < K)%nat -> sponge_value (on_tagged 2 Np K Vert EToV (e_x el) (e_y el) bc') strength rad (ment C n k) (node n k) (ment C' n k).
Proof.
  intros [HB HM HA HS Hrun Hbc] HN opn bc2 d2 Et2 Er2 H2 strength rad C Hrad (C1 & C2).
  destruct (sponge_ok _ _ _ _ _ _ _ _ _ _ _ _ HB _ _ HM HA HS _ _ _ _ _ Hrun Hbc jv opn strength rad C HN Hrad C1 C2) as (d' & bc' & Er & Et & HC).
  rewrite Et in Et2. injection Et2 as <-. rewrite Er in Er2. injection Er2 as <-. destruct (HC H2) as (C' & E & S1 & S2 & Hv). exists C'. repeat split; assumption.
Qed.
(* So the coefficient the driver builds from zero lies between 0 and the strength and is the strength on the open sides. *)
Corollary C83_sponge_bounds : Grid -> (N <= 4)%nat -> forall opn bc' d', tag_open opn EToV K bcType = Ok bc' -> retagged junkn opn EToV 3 (S N) K bcType d = Ok d' ->
  forall strength rad C C', 0 < rad <= 10 ^ 12 -> 0 <= strength -> shape C Np K -> (forall n k, ment C n k = 0) ->
  sponge_coeff (exact G) rhypot jv d' 3 (S N) Np K (e_x el) (e_y el) strength rad C = Ok C' ->
  forall n k, (n < Np)%nat -> (k < K)%nat -> 0 <= ment C' n k <= strength /\ (on_tagged 2 Np K Vert EToV (e_x el) (e_y el) bc' (node n k) -> ment C' n k = strength).
Proof.
  intros HG HN opn bc' d' Et Er strength rad C C' (Hr0 & Hrad) Hs SC HC0 HE n k Hn Hk. pose proof HG as [HB HM HA HS Hrun Hbc].
  assert (Hd : forall p q, 0 <= distance p q) by (intros; apply sqrt_pos).
  assert (Hpp : forall p, distance p p = 0) by (intro p; unfold distance; replace ((fst p - fst p) ^ 2 + (snd p - snd p) ^ 2) with 0 by ring; apply sqrt_0).
  assert (Ht : tagged bc' 2%Z).
  { destruct (sponge_none _ _ _ _ _ _ _ _ _ _ _ _ HB _ _ HM _ _ _ _ _ Hrun Hbc jv opn strength rad C) as (d2 & bc2 & Er2 & Et2 & Hno & _).
    rewrite Et2 in Et. injection Et as <-. rewrite Er2 in Er. injection Er as <-.
    assert (Hdec : tagged bc2 2%Z \/ untagged bc2 2%Z).
    { destruct (existsb (fun i => (nth i bc2 0 =? 2)%Z) (seq 0 (3 * K))) eqn:E.
      - apply existsb_exists in E as (i & Hi & E). apply in_seq in Hi. apply Z.eqb_eq in E. left. exists (i / 3)%nat, (i mod 3)%nat. split; [apply Nat.div_lt_upper_bound; lia|]. split; [apply Nat.mod_upper_bound; lia|].
        unfold tag_of. rewrite <- (Nat.div_mod i 3) by lia. exact E.
      - right. intros k' f' Hk' Hf' T. assert (E2 : existsb (fun i => (nth i bc2 0 =? 2)%Z) (seq 0 (3 * K)) = true).
        { apply existsb_exists. exists (3 * k' + f')%nat. split; [apply in_seq; lia|]. apply Z.eqb_eq. exact T. } congruence. }
    destruct Hdec as [Hy|Hn2]; [exact Hy|]. rewrite (Hno Hn2) in HE. discriminate. }
  destruct (C83_sponge HG HN opn bc' d' Et Er Ht strength rad C Hrad SC) as (C2 & E2 & _ & Hv). rewrite E2 in HE. injection HE as <-. specialize (Hv n k Hn Hk). rewrite HC0 in Hv.
  destruct Hv as [(q & Hq & Hlt & Hmin & ->)|(Hfar & ->)].
  - pose proof (Hd (node n k) q) as Hdq. split.
    + assert (0 <= distance (node n k) q / rad <= 1) by (split; [apply Rmult_le_pos; [exact Hdq|left; apply Rinv_0_lt_compat; exact Hr0]|apply Rmult_le_reg_r with rad; [exact Hr0|]; unfold Rdiv; rewrite Rmult_assoc, Rinv_l, Rmult_1_r by lra; lra]). nra.
    + intro Ho. specialize (Hmin _ Ho). rewrite Hpp in Hmin. replace (distance (node n k) q) with 0 by lra. field. lra.
  - split; [lra|]. intro Ho. specialize (Hfar _ Ho). rewrite Hpp in Hfar. lra.
Qed.
(* With no open side the driver throws. *)
Theorem C83_sponge_no_open_throws : Grid -> forall opn bc' d', tag_open opn EToV K bcType = Ok bc' -> retagged junkn opn EToV 3 (S N) K bcType d = Ok d' ->
  untagged bc' 2%Z -> forall strength rad C, sponge_coeff (exact G) rhypot jv d' 3 (S N) Np K (e_x el) (e_y el) strength rad C = Throw.
Proof.
  intros [HB HM HA HS Hrun Hbc] opn bc2 d2 Et2 Er2 H2 strength rad C.
  destruct (sponge_none _ _ _ _ _ _ _ _ _ _ _ _ HB _ _ HM _ _ _ _ _ Hrun Hbc jv opn strength rad C) as (d' & bc' & Er & Et & Hno & _).
  rewrite Et in Et2. injection Et2 as <-. rewrite Er in Er2. injection Er2 as <-. exact (Hno H2).
Qed.
End C83.
(* The node coordinates are copied into vectors with one entry per face node. From order 5 on an element has more nodes
   than face nodes, and the copy runs past the end: in any arithmetic, whatever the grid. *)
Theorem C83_sponge_overflow_refuted {T} (A : arith T) hyp jv (d : dg2d (T := T)) N Np K (X Y : mat T) strength rad C l :
  (2 * Np = (N + 1) * (N + 2))%nat -> (5 <= N)%nat -> (0 < K)%nat -> mrows X = Np -> mcols X = K -> hfind (d_bc d) 2 = Some l ->
  sponge_coeff A hyp jv d 3 (S N) Np K X Y strength rad C = UB.
Proof.
  intros HNp HN HK X1 X2 Hl. unfold sponge_coeff. rewrite Hl. unfold fullToVector at 1. rewrite reshape_short; [reflexivity|]. rewrite vfresh_len, X1, X2. apply Nat.mul_lt_mono_pos_r; [lia|]. nia.
Qed.

(* A side between two elements is opened too, if both its ends are open vertices: here the diagonal of a square, though
   the mesh says it is shared. *)
Theorem C83_interior_side_refuted :
  let EToV := [0; 1; 2;  0; 2; 3]%nat in let opn v := ((v =? 0) || (v =? 2))%nat in
  exists bc', tag_open opn EToV 2 [3; 3; 0; 0; 3; 3]%Z = Ok bc' /\ joined EToV 0 2 1 0 /\ tag_of bc' 0 2 = 2%Z /\ tag_of bc' 1 0 = 2%Z.
Proof.
  eexists. split; [vm_compute; reflexivity|]. split; [|split; reflexivity]. destruct C49_witness as (_ & _ & J). exact J.
Qed.

(* The hypotheses are met: two triangles, the side between vertices 1 and 2 open, the other three walls. *)
Example C83_witness :
  let Vert := [0; 0; 0;  1; 0; 0;  1; 1; 0;  0; 1; 0] in let EToV := [0; 1; 2;  0; 2; 3]%nat in
  let E2E := [0; 0; 1;  0; 1; 1]%nat in let E2F := [0; 1; 0;  2; 1; 2]%nat in let bcType := [3; 3; 0; 0; 3; 3]%Z in let opn v := ((v =? 1) || (v =? 2))%nat in
  exists el m d', let Np := length (e_r el) in let bc' := [3; 2; 0; 0; 3; 3]%Z in
    let q := (mkmat Np 2 (fun _ _ => 1), mkmat Np 2 (fun i _ => INR i), mkmat Np 2 (fun _ _ => 0)) in
    sw_grid gwit cramer cramer_inv junk0 0 eig0 (1 / 10) isort (fun _ => 0) (fun _ => 0%nat) 1 2 Vert EToV E2E E2F bcType el m /\
    tag_open opn EToV 2 bcType = Ok bc' /\ retagged (fun _ => 0%nat) opn EToV 3 2 2 bcType (tables_of el m) = Ok d' /\
    tag_of bc' 0 1 = 2%Z /\ tag_of bc' 0 0 = 3%Z /\ state_conform q Np 2 = true /\
    (exists p, interpolant 1 Np (e_x el) (e_y el) (mkmat Np 2 (fun i k => 150 + fst (node_at (e_x el) (e_y el) i k))) 0 p) /\
    exists C', sponge_coeff (exact gwit) rhypot (fun _ => 0) d' 3 2 Np 2 (e_x el) (e_y el) 10000 1000 (mkmat Np 2 (fun _ _ => 0)) = Ok C'.
Proof.
  intros Vert EToV E2E E2F bcType opn. destruct C49_witness as (Hg & _ & _). destruct (Hg bcType (or_introl eq_refl)) as (el & m & HG & _).
  destruct (C83_tags _ _ _ _ _ _ _ _ _ _ _ _ _ _ _ _ _ _ _ HG opn) as (bc2 & d' & Et & _ & _ & Er). exists el, m, d'. cbv zeta. split; [exact HG|].
  assert (Et' : tag_open opn EToV 2 bcType = Ok [3; 2; 0; 0; 3; 3]%Z) by (vm_compute; reflexivity).
  split; [exact Et'|]. split; [exact Er|]. split; [reflexivity|]. split; [reflexivity|]. split; [unfold state_conform, conform; cbn; rewrite !Nat.eqb_refl; reflexivity|]. split.
  - exists [(0%nat, 0%nat, 150); (1%nat, 0%nat, 1)]. split; [repeat constructor|]. intros i Hi. unfold at_point. cbn [eval2 ment]. cbn. ring.
  - destruct (C83_sponge _ _ _ _ _ _ _ _ _ _ _ _ _ _ _ _ _ _ _ (fun _ => 0) HG ltac:(lia) opn _ _ Et' Er) with (strength := 10000) (rad := 1000) (C := mkmat (length (e_r el)) 2 (fun _ _ : nat => 0)) as (C' & E & _).
    + exists 0%nat, 1%nat. repeat split; lia.
    + lra.
    + split; reflexivity.
    + exists C'. exact E.
Qed.
Print Assumptions C83_depth.
Print Assumptions C83_depth_floor.
Print Assumptions C83_depth_too_long_refuted.
Print Assumptions C83_depth_bad.
Print Assumptions C83_bed_slopes.
Print Assumptions C83_slopes_unfiltered.
Print Assumptions C83_tags.
Print Assumptions C83_scheme.
Print Assumptions C83_sponge.
Print Assumptions C83_sponge_bounds.
Print Assumptions C83_sponge_no_open_throws.
Print Assumptions C83_sponge_overflow_refuted.
Print Assumptions C83_interior_side_refuted.
