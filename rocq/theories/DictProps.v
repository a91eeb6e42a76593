(* DictProps.v - dictionaries handed to and taken from Python (C114). *)
From Coq Require Import ZArith List Bool Ascii String Lia Permutation.
From Verif Require Import Base Loops CsvModel NumpyModel NumpySpec NumpyProps PathModel PathProofs DictModel DictSpec.
Import ListNotations.
Local Open Scope nat_scope.

(* ---- boundary maps ---- *)
Lemma bc_list_id v : bc_list v = v.
Proof.
  unfold bc_list. assert (K : forall l acc : list Z, fold_left (fun l n => l ++ [n]) l acc = acc ++ l).
  { induction l as [|x l IH]; intro acc; cbn [fold_left]; [symmetry; apply app_nil_r|]. rewrite IH, <- app_assoc. reflexivity. }
  apply K.
Qed.
Lemma dict_set_new {V} (d : list (Z * V)) k v : ~ In k (map fst d) -> dict_set d k v = d ++ [(k, v)].
Proof.
  induction d as [|(k' & v') d IH]; intro H; cbn [dict_set app]; [reflexivity|]. destruct (Z.eqb_spec k k') as [->|N]; [exfalso; apply H; left; reflexivity|].
  rewrite IH; [reflexivity|]. intro Q. apply H. right. exact Q.
Qed.
Lemma bcmap_id h : NoDup (map fst h) -> bcmap_numpy h = h.
Proof.
  unfold bcmap_numpy. assert (K : forall l acc, NoDup (map fst (acc ++ l)) -> fold_left (fun d t => dict_set d (fst t) (bc_list (snd t))) l acc = acc ++ l).
  { induction l as [|(k & v) l IH]; intros acc H; cbn [fold_left]; [symmetry; apply app_nil_r|]. cbn [fst snd]. rewrite bc_list_id, dict_set_new.
    - rewrite IH; [rewrite <- app_assoc; reflexivity|rewrite <- app_assoc; exact H].
    - rewrite map_app in H. cbn [map fst] in H. apply NoDup_remove_2 in H. intro Q. apply H, in_or_app. left. exact Q. }
  intro H. rewrite K; [reflexivity|exact H].
Qed.
Lemma get_in {V} (d : list (Z * V)) k v : NoDup (map fst d) -> (dict_get d k = Some v <-> In (k, v) d).
Proof.
  induction d as [|(k' & v') d IH]; cbn [dict_get map fst]; intro H; [split; [discriminate|intros []]|]. apply NoDup_cons_iff in H as (N & H). destruct (Z.eqb_spec k k') as [->|Ne].
  - split; [intros [= ->]; left; reflexivity|]. intros [[= ->]|Q]; [reflexivity|]. exfalso. apply N. apply (in_map fst) in Q. exact Q.
  - rewrite (IH H). split; [intro Q; right; exact Q|]. intros [[= -> ->]|Q]; [congruence|exact Q].
Qed.

(* assignment to a key: that key gets the value, the other keys keep theirs *)
Theorem C114_assignment {V} (d : list (Z * V)) k v k' : dict_get (dict_set d k v) k' = if (k' =? k)%Z then Some v else dict_get d k'.
Proof.
  induction d as [|(q & w) d IH]; cbn [dict_set dict_get]; [reflexivity|]. destruct (Z.eqb_spec k q) as [->|N]; cbn [dict_get].
  - destruct (Z.eqb_spec k' q); reflexivity.
  - rewrite IH. destruct (Z.eqb_spec k' q), (Z.eqb_spec k' k); congruence.
Qed.
Example C114_assignment_witness : dict_get (dict_set [(3, [0]); (1, [2])]%Z 1 [7]%Z) 1 = Some [7]%Z /\ dict_get (dict_set [(3, [0]); (1, [2])]%Z 1 [7]%Z) 3 = Some [0]%Z.
Proof. split; reflexivity. Qed.
(* the dictionary has the tags of the map and no others, each with its list of nodes in order, whatever the order of iteration *)
Theorem C114_bcmap h : NoDup (map fst h) ->
  (forall tag nodes, dict_get (bcmap_numpy h) tag = Some nodes <-> In (tag, nodes) h) /\ List.length (bcmap_numpy h) = List.length h /\
  (forall h', Permutation h h' -> forall tag, dict_get (bcmap_numpy h') tag = dict_get (bcmap_numpy h) tag).
Proof.
  intro H. rewrite (bcmap_id h H). split; [intros; apply get_in, H|]. split; [reflexivity|]. intros h' P tag.
  assert (H' : NoDup (map fst h')) by (eapply Permutation_NoDup; [apply Permutation_map, P|exact H]). rewrite (bcmap_id h' H').
  destruct (dict_get h tag) as [v|] eqn:E.
  - apply get_in; [exact H'|]. apply get_in in E; [|exact H]. eapply Permutation_in; eauto.
  - destruct (dict_get h' tag) as [v|] eqn:E'; [|reflexivity]. apply get_in in E'; [|exact H']. apply (Permutation_in (tag, v) (Permutation_sym P)) in E'. apply get_in in E'; [congruence|exact H].
Qed.
Example C114_bcmap_witness : NoDup (map fst [(3, [0; 4; 8]); (1, [2; 5])]%Z) /\ dict_get (bcmap_numpy [(3, [0; 4; 8]); (1, [2; 5])]%Z) 1 = Some [2; 5]%Z /\ dict_get (bcmap_numpy [(3, [0; 4; 8]); (1, [2; 5])]%Z) 2 = None.
Proof. split; [repeat constructor; cbn; lia|split; reflexivity]. Qed.

(* ---- fields ---- *)
Section Fields.
Context {B T : Type} (c : ctype B T) (zero : T).
Variable ext : str.
Variable render : str -> mat T -> str.
Variable writable : str -> bool.
Local Notation call := (writeFieldsToFiles_numpy c zero ext render writable).

Lemma c_string_plain s : plain s -> c_string s = s.
Proof.
  induction s as [|ch s IH]; intro H; cbn [c_string]; [reflexivity|]. destruct (Ascii.eqb_spec ch Ascii.zero) as [->|N]; [exfalso; apply H; left; reflexivity|]. rewrite IH; [reflexivity|]. intro Q. apply H. right. exact Q.
Qed.
Lemma names_of (fs : list (str * ndarray B)) : field_names (map fst (dict_of fs)) = Ok (map fst fs).
Proof. induction fs as [|f fs IH]; [reflexivity|]. unfold dict_of in IH |- *. cbn [map fst field_names]. rewrite IH. reflexivity. Qed.
Lemma arrays_of (fs : list (str * ndarray B)) : field_arrays (map snd (dict_of fs)) = Ok (map snd fs).
Proof. induction fs as [|f fs IH]; [reflexivity|]. unfold dict_of in IH |- *. cbn [map snd field_arrays]. rewrite IH. reflexivity. Qed.
(* the arrays taken as matrices *)
Definition taken (f : str * ndarray B) (g : str * mat T) : Prop := fst f = fst g /\ matrix_argument c zero (snd f) = Ok (snd g).
Lemma loop_writes tstep fs : forall gs done dk, Forall2 taken fs gs -> Forall (fun f => plain (fst f)) fs ->
  write_loop c zero ext render writable (map fst fs) (done ++ map snd fs) (List.length done) tstep dk = (writeFieldsToFiles ext render writable gs tstep dk, Ok tt).
Proof.
  induction fs as [|f fs IH]; intros gs done dk H HP; inversion H as [|? g ? gs' (E1 & E2) H']; subst; [reflexivity|]. inversion HP; subst. cbn [map write_loop].
  rewrite nth_error_app2, Nat.sub_diag by lia. cbn [nth_error]. rewrite E2, c_string_plain by assumption.
  specialize (IH gs' (done ++ [snd f]) (write1 writable dk (generateFileName ext (fst f) tstep) (render (fst f) (snd g))) H' ltac:(assumption)).
  rewrite <- app_assoc, app_length in IH. cbn [List.length app] in IH. rewrite Nat.add_1_r in IH. rewrite IH. unfold writeFieldsToFiles. cbn [fold_left]. rewrite E1. reflexivity.
Qed.
Lemma call_writes tstep fs gs dk : Forall2 taken fs gs -> Forall (fun f => plain (fst f)) fs -> call (dict_of fs) tstep dk = (writeFieldsToFiles ext render writable gs tstep dk, Ok tt).
Proof. intros H HP. unfold writeFieldsToFiles_numpy. rewrite names_of, arrays_of. cbn [bind]. apply (loop_writes tstep fs gs [] dk H HP). Qed.
Lemma taken_all fs : ctype_ok c -> (forall name a, In (name, a) fs -> exists r s f, c_ordered c a /\ is_matrix c a r s f) -> exists gs, Forall2 taken fs gs.
Proof.
  intro Hc. induction fs as [|(n & a) fs IH]; intro H; [exists []; constructor|]. destruct IH as (gs & E); [intros; eapply H; right; eassumption|].
  destruct (H n a (or_introl eq_refl)) as (r & s & f & Ho & Hm). destruct (C90_arguments c zero a r s f [] (mkmat 0 0 (fun _ _ => zero)) (mkmat 0 0 (fun _ _ => zero)) a f Hc Ho Hm) as ((m & Em & _) & _).
  exists ((n, m) :: gs). constructor; [split; [reflexivity|exact Em]|exact E].
Qed.
Lemma taken_names fs gs : Forall2 taken fs gs -> map fst gs = map fst fs.
Proof. induction 1 as [|f g fs gs (E & _) _ IH]; [reflexivity|]. cbn [map]. rewrite IH, E. reflexivity. Qed.
Lemma taken_in fs gs name a : Forall2 taken fs gs -> In (name, a) fs -> exists m, In (name, m) gs /\ matrix_argument c zero a = Ok m.
Proof.
  induction 1 as [|f (n & m) fs gs (E1 & E2) _ IH]; intros []; cbn [fst snd] in *.
  - subst f. cbn [fst snd] in *. subst n. exists m. split; [left; reflexivity|exact E2].
  - destruct IH as (m' & I1 & I2); [assumption|]. exists m'. split; [right; exact I1|exact I2].
Qed.

(* every field goes into the file of its own name, with the values Python shows; nothing else changes *)
Theorem C114_fields tstep fs dk : ctype_ok c -> NoDup (map fst fs) -> Forall (fun f => plain (fst f)) fs ->
  (forall name a, In (name, a) fs -> exists r s f, c_ordered c a /\ is_matrix c a r s f) ->
  exists dk', call (dict_of fs) tstep dk = (dk', Ok tt) /\
    (forall name a r s f, In (name, a) fs -> c_ordered c a -> is_matrix c a r s f -> writable (generateFileName ext name tstep) = true ->
       exists m, dk' (generateFileName ext name tstep) = Some (render name m) /\ mrows m = r /\ mcols m = s /\ forall i j, i < r -> j < s -> ment m i j = f i j) /\
    (forall file, (forall name a, In (name, a) fs -> file <> generateFileName ext name tstep) -> dk' file = dk file) /\
    (forall file, writable file = false -> dk' file = dk file).
Proof.
  intros Hc ND HP HA. destruct (taken_all fs Hc HA) as (gs & HT). eexists. split; [apply (call_writes tstep fs gs dk HT HP)|]. split; [|split].
  - intros name a r s f Hin Ho Hm W. destruct (taken_in fs gs name a HT Hin) as (m & I1 & I2).
    destruct (C90_arguments c zero a r s f [] (mkmat 0 0 (fun _ _ => zero)) (mkmat 0 0 (fun _ _ => zero)) a f Hc Ho Hm) as ((m' & Em & R & S & K) & _).
    assert (m' = m) by congruence. subst m'. exists m. split; [|auto]. apply fields_written; [rewrite (taken_names fs gs HT); exact ND|exact I1|exact W].
  - intros file HF. apply fields_other. intros (n & m) Hin. cbn [fst]. assert (Q : In n (map fst fs)) by (rewrite <- (taken_names fs gs HT); apply (in_map fst) in Hin; exact Hin).
    apply in_map_iff in Q as ((n' & a) & E & Q). cbn [fst] in E. subst n'. eapply HF, Q.
  - intros file W. apply fields_denied, W.
Qed.
(* the order in which the fields were put into the dictionary does not matter *)
Theorem C114_order tstep fs fs' dk : ctype_ok c -> NoDup (map fst fs) -> Forall (fun f => plain (fst f)) fs ->
  (forall name a, In (name, a) fs -> exists r s f, c_ordered c a /\ is_matrix c a r s f) -> Permutation fs fs' ->
  forall file, fst (call (dict_of fs') tstep dk) file = fst (call (dict_of fs) tstep dk) file.
Proof.
  intros Hc ND HP HA P file. assert (HP' : Forall (fun f => plain (fst f)) fs') by (eapply Permutation_Forall; eauto).
  assert (ND' : NoDup (map fst fs')) by (eapply Permutation_NoDup; [apply Permutation_map, P|exact ND]).
  destruct (taken_all fs Hc HA) as (gs & HT). destruct (taken_all fs' Hc) as (gs' & HT'). { intros n a Q. apply (HA n a). eapply Permutation_in; [apply Permutation_sym, P|exact Q]. }
  rewrite (call_writes tstep fs gs dk HT HP), (call_writes tstep fs' gs' dk HT' HP'). cbn [fst].
  destruct (writable file) eqn:W; [|rewrite !fields_denied by exact W; reflexivity].
  destruct (in_dec (list_eq_dec ascii_dec) file (map (fun f => generateFileName ext (fst f) tstep) fs)) as [I|N].
  - apply in_map_iff in I as ((n & a) & <- & I). cbn [fst] in *. destruct (taken_in fs gs n a HT I) as (m & I1 & I2).
    destruct (taken_in fs' gs' n a HT' (Permutation_in _ P I)) as (m' & J1 & J2). assert (m' = m) by congruence. subst m'.
    rewrite (fields_written _ _ _ gs' tstep dk n m), (fields_written _ _ _ gs tstep dk n m); auto; [rewrite (taken_names fs gs HT); exact ND|rewrite (taken_names fs' gs' HT'); exact ND'].
  - assert (Z : forall l l', Forall2 taken l l' -> Permutation fs l -> forall kv, In kv l' -> file <> generateFileName ext (fst kv) tstep).
    { intros l l' Hl Pl kv Hkv ->. apply N. assert (Q : In (fst kv) (map fst l)) by (rewrite <- (taken_names l l' Hl); apply in_map, Hkv). apply in_map_iff in Q as (g & E & Q). rewrite <- E.
      apply (in_map (fun f => generateFileName ext (fst f) tstep)). eapply Permutation_in; [apply Permutation_sym, Pl|exact Q]. }
    rewrite !fields_other; [reflexivity|apply (Z fs gs HT (Permutation_refl _))|apply (Z fs' gs' HT' P)].
Qed.
(* an item that is not a name with an array stops the call before anything is written *)
Theorem C114_bad_item tstep fields dk : (exists f, In f fields /\ (fst f = KOther \/ snd f = VOther)) -> call fields tstep dk = (dk, Throw).
Proof.
  intros (f & Hin & Hf). unfold writeFieldsToFiles_numpy.
  assert (KN : forall l : list (pykey * pyval B), (exists ns, field_names (map fst l) = Ok ns /\ ~ In KOther (map fst l)) \/ field_names (map fst l) = Throw).
  { induction l as [|([s|] & v) l IH]; cbn [map fst field_names]; [left; exists []; auto| |right; reflexivity]. destruct IH as [(ns & -> & N)| -> ]; cbn [bind]; [left; exists (s :: ns); split; [reflexivity|]; intros [Q|Q]; [discriminate|contradiction]|right; reflexivity]. }
  assert (KA : forall l : list (pykey * pyval B), (exists ns, field_arrays (map snd l) = Ok ns /\ ~ In VOther (map snd l)) \/ field_arrays (map snd l) = Throw).
  { induction l as [|(k & [a|]) l IH]; cbn [map snd field_arrays]; [left; exists []; auto| |right; reflexivity]. destruct IH as [(ns & -> & N)| -> ]; cbn [bind]; [left; exists (a :: ns); split; [reflexivity|]; intros [Q|Q]; [discriminate|contradiction]|right; reflexivity]. }
  destruct (KN fields) as [(ns & -> & N)| -> ]; cbn [bind]; [|reflexivity]. destruct (KA fields) as [(as_ & -> & N2)| -> ]; cbn [bind]; [|reflexivity]. exfalso. destruct Hf as [Hf|Hf].
  - apply N. rewrite <- Hf. apply in_map, Hin.
  - apply N2. rewrite <- Hf. apply in_map, Hin.
Qed.
End Fields.

(* ---- witnesses: one-byte numbers ---- *)
Definition ct_nat : ctype nat nat := CType 1 (fun v => [v]) (fun b => nth 0 b 0) 0.
Lemma ct_nat_ok : ctype_ok ct_nat.
Proof. constructor; [cbn; lia|reflexivity|reflexivity]. Qed.
Definition arr (l : list nat) : ndarray nat := NdArray l 0 1 [1; List.length l] (c_strides 1 [1; List.length l]).
Definition lits := list_ascii_of_string.
Definition shown (n : str) (m : mat nat) : str := n ++ lits "=" ++ map (fun j => ascii_of_nat (48 + ment m 0 j)) (seq 0 (mcols m)).
Definition two := [(lits "h", arr [1; 2; 3]); (lits "u", arr [4; 5])].
Example C114_witness : NoDup (map fst two) /\ Forall (fun f => plain (fst f)) two /\ (forall name a, In (name, a) two -> exists r s f, c_ordered ct_nat a /\ is_matrix ct_nat a r s f) /\
  let dk := fst (writeFieldsToFiles_numpy ct_nat 0 (lits "vtu") shown (fun _ => true) (dict_of two) 12 (fun _ => None)) in
  dk (lits "h0000012.vtu") = Some (lits "h=123") /\ dk (lits "u0000012.vtu") = Some (lits "u=45") /\ dk (lits "u0000013.vtu") = None.
Proof.
  split; [|split; [|split]].
  - cbn. repeat constructor; cbn; intuition discriminate.
  - repeat constructor; intros [E|[]]; discriminate E.
  - intros name a [E|[E|[]]]; injection E as <- <-.
    + exists 1, 3, (fun _ j => nth j [1; 2; 3] 0). split; [repeat split; cbn; lia|]. split; [reflexivity|]. intros i j Hi Hj. destruct i as [|i]; [|lia]. destruct j as [|[|[|j]]]; [reflexivity|reflexivity|reflexivity|lia].
    + exists 1, 2, (fun _ j => nth j [4; 5] 0). split; [repeat split; cbn; lia|]. split; [reflexivity|]. intros i j Hi Hj. destruct i as [|i]; [|lia]. destruct j as [|[|j]]; [reflexivity|reflexivity|lia].
  - vm_compute. auto.
Qed.
(* Finding: a name is cut at a zero byte, so that two fields can share a file, and one is lost. *)
Theorem C114_zero_byte_refuted : exists n1 n2, n1 <> n2 /\
  let dk := writeFieldsToFiles_numpy ct_nat 0 (lits "vtu") shown (fun _ => true) (dict_of [(n1, arr [1; 2; 3]); (n2, arr [4; 5])]) 0 (fun _ => None) in
  snd dk = Ok tt /\ fst dk (lits "h0000000.vtu") = Some (lits "h=45") /\ (forall file, file <> lits "h0000000.vtu" -> fst dk file = None).
Proof.
  exists (lits "h" ++ [zero; "a"%char]), (lits "h" ++ [zero; "b"%char]). split; [discriminate|]. cbv zeta. split; [vm_compute; reflexivity|]. split; [vm_compute; reflexivity|].
  intros file N. change (fst (writeFieldsToFiles_numpy ct_nat 0 (lits "vtu") shown (fun _ => true) (dict_of [(lits "h" ++ [zero; "a"%char], arr [1; 2; 3]); (lits "h" ++ [zero; "b"%char], arr [4; 5])]) 0 (fun _ => None)))
    with (write1 (fun _ => true) (write1 (fun _ => true) (fun _ => None) (generateFileName (lits "vtu") (lits "h") 0) (lits "h=123")) (generateFileName (lits "vtu") (lits "h") 0) (lits "h=45")).
  rewrite !write1_other by exact N. reflexivity.
Qed.
Print Assumptions C114_bcmap. Print Assumptions C114_assignment. Print Assumptions C114_fields. Print Assumptions C114_order. Print Assumptions C114_bad_item. Print Assumptions C114_zero_byte_refuted. Print Assumptions C114_witness.
