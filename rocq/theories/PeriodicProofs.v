(* PeriodicProofs.v - proofs for makeMapsPeriodic and correctBCTable. *)
From Coq Require Import ZArith List Lia Bool Arith.
From Verif Require Import Base Loops Num Line1DModel PeriodicModel PeriodicSpec.
From Coq Require Import Reals Lra.
Import ListNotations.
Local Open Scope nat_scope.

Lemma at_nth {X} (l : list X) i d : i < length l -> at_ l i = Ok (nth i l d).
Proof. intro H. unfold at_. rewrite (nth_error_nth' l d H). reflexivity. Qed.
Lemma at_out {X} (l : list X) i : length l <= i -> at_ l i = Throw.
Proof. intro H. unfold at_. now rewrite (proj2 (nth_error_None l i) H). Qed.
Lemma at_not_UB {X} (l : list X) i : at_ l i <> UB.
Proof. unfold at_. destruct (nth_error l i); discriminate. Qed.

Lemma each_all {X Y} (f : X -> outcome Y) g l : (forall a, In a l -> f a = Ok (g a)) -> each_entry f l = Ok (map g l).
Proof. induction l as [|a r IH]; intro H; [reflexivity|]. cbn [each_entry map]. rewrite (H a (or_introl eq_refl)). cbn [bind]. rewrite IH by (intros; apply H; now right). reflexivity. Qed.
Lemma each_ok {X Y} (f : X -> outcome Y) l r : each_entry f l = Ok r -> Forall2 (fun a b => f a = Ok b) l r.
Proof.
  revert r. induction l as [|a l IH]; intros r H; cbn [each_entry] in H.
  - injection H as <-. constructor.
  - destruct (f a) as [b| |] eqn:E; try discriminate. cbn [bind] in H. destruct (each_entry f l) as [s| |]; try discriminate. injection H as <-. constructor; auto.
Qed.
Lemma each_throw {X Y} (f : X -> outcome Y) l : (exists a, In a l /\ f a = Throw) -> (forall b, In b l -> f b <> UB) -> each_entry f l = Throw.
Proof.
  induction l as [|a l IH]; intros (b & Hb & Eb) H; [destruct Hb|]. cbn [each_entry]. destruct (f a) as [c| |] eqn:E; [|reflexivity|exfalso; apply (H a); [now left|exact E]].
  cbn [bind]. destruct Hb as [<-|Hb]; [congruence|]. rewrite IH; [reflexivity|exists b; auto|]. intros; apply H; now right.
Qed.
Lemma Forall2_nth {X Y} (P : X -> Y -> Prop) l r i d e : Forall2 P l r -> i < length l -> P (nth i l d) (nth i r e).
Proof. intro H. revert i. induction H as [|a b l r Hab H IH]; intros [|i] Hi; cbn in *; try lia; auto. apply IH. lia. Qed.
Lemma Forall2_len {X Y} (P : X -> Y -> Prop) l r : Forall2 P l r -> length l = length r.
Proof. induction 1; cbn; congruence. Qed.

Lemma keys_nodup l : NoDup l -> keys_of l = l.
Proof.
  induction 1 as [|a l Ha Hn IH]; [reflexivity|]. cbn [keys_of]. rewrite IH. f_equal.
  clear - Ha. induction l as [|b l IHl]; [reflexivity|]. cbn [filter]. destruct (Nat.eqb_spec b a) as [->|]; [exfalso; apply Ha; now left|]. cbn [negb]. f_equal. apply IHl. intro; apply Ha; now right.
Qed.
Lemma lookup_nth keys parts v : NoDup keys -> length keys = length parts -> In v keys -> exists j, j < length keys /\ nth j keys 0 = v /\ lookup keys parts v = Some (nth j parts 0).
Proof.
  intro Hn. revert parts. induction Hn as [|a l Ha Hn IH]; intros [|b parts] HL Hv; cbn in HL; try discriminate; [destruct Hv|].
  unfold lookup. cbn [combine find fst]. destruct (Nat.eqb_spec a v) as [->|Hne].
  - exists 0. cbn. repeat split; lia.
  - destruct Hv as [|Hv]; [congruence|]. destruct (IH parts ltac:(lia) Hv) as (j & Hj & Ej & El). exists (S j). cbn. repeat split; [lia|exact Ej|exact El].
Qed.
Lemma lookup_none keys parts v : ~ In v keys -> lookup keys parts v = None.
Proof.
  revert parts. induction keys as [|a l IH]; intros [|b parts] Hv; try reflexivity. unfold lookup. cbn [combine find fst]. destruct (Nat.eqb_spec a v) as [->|]; [exfalso; apply Hv; now left|].
  apply IH. intro; apply Hv; now right.
Qed.

Lemma upd_len {X} (l : list X) i v : length (upd l i v) = length l.
Proof. revert i. induction l as [|a l IH]; intros [|i]; cbn; auto. Qed.
Lemma upd_same {X} (l : list X) i v d : i < length l -> nth i (upd l i v) d = v.
Proof. revert i. induction l as [|a l IH]; intros [|i] H; cbn in *; try lia; auto. apply IH. lia. Qed.
Lemma upd_other {X} (l : list X) i j v d : i <> j -> nth j (upd l i v) d = nth j l d.
Proof. revert i j. induction l as [|a l IH]; intros [|i] [|j] H; cbn in *; try lia; auto. Qed.

(* what redirect does from position i on *)
Lemma redirect_ok look r i p : (forall j, j < length r -> look (nth j r 0) <> None -> i + j < length p) ->
  exists q, redirect look i r p = Ok q /\ length q = length p /\
  forall j, j < length p -> nth j q 0 = if (i <=? j) && (j - i <? length r) then match look (nth (j - i) r 0) with Some b => b | None => nth j p 0 end else nth j p 0.
Proof.
  revert i p. induction r as [|v r IH]; intros i p H; cbn [redirect].
  - exists p. split; [reflexivity|]. split; [reflexivity|]. intros j Hj. cbn [length]. rewrite (proj2 (Nat.ltb_ge (j - i) 0)) by lia. rewrite andb_false_r. reflexivity.
  - destruct (look v) as [b|] eqn:Ev.
    + assert (Hi : i < length p). { specialize (H 0). cbn in H. rewrite Ev in H. specialize (H ltac:(lia) ltac:(discriminate)). lia. }
      rewrite (proj2 (Nat.ltb_lt i (length p)) Hi). destruct (IH (S i) (upd p i b)) as (q & Eq & Lq & Hq). { intros j Hj Hl. rewrite upd_len. specialize (H (S j)). cbn in H. specialize (H ltac:(lia) Hl). lia. }
      exists q. rewrite upd_len in *. split; [exact Eq|]. split; [exact Lq|]. intros j Hj. rewrite (Hq j Hj).
      destruct (Nat.leb_spec (S i) j) as [H1|H1].
      * rewrite (proj2 (Nat.leb_le i j)) by lia. cbn [andb]. replace (j - i) with (S (j - S i)) by lia. cbn [nth length]. rewrite upd_other by lia.
        destruct (Nat.ltb_spec (j - S i) (length r)); destruct (Nat.ltb_spec (S (j - S i)) (S (length r))); try lia; reflexivity.
      * cbn [andb]. destruct (Nat.leb_spec i j) as [H2|H2]; cbn [andb].
        -- assert (j = i) by lia. subst j. rewrite Nat.sub_diag. cbn [length nth]. rewrite (proj2 (Nat.ltb_lt 0 (S (length r)))) by lia. rewrite Ev. apply upd_same. exact Hi.
        -- apply upd_other. lia.
    + destruct (IH (S i) p) as (q & Eq & Lq & Hq). { intros j Hj Hl. specialize (H (S j)). cbn in H. specialize (H ltac:(lia) Hl). lia. }
      exists q. split; [exact Eq|]. split; [exact Lq|]. intros j Hj. rewrite (Hq j Hj).
      destruct (Nat.leb_spec (S i) j) as [H1|H1].
      * rewrite (proj2 (Nat.leb_le i j)) by lia. cbn [andb]. replace (j - i) with (S (j - S i)) by lia. cbn [nth length].
        destruct (Nat.ltb_spec (j - S i) (length r)); destruct (Nat.ltb_spec (S (j - S i)) (S (length r))); try lia; reflexivity.
      * cbn [andb]. destruct (Nat.leb_spec i j) as [H2|H2]; cbn [andb]; [|reflexivity].
        assert (j = i) by lia. subst j. rewrite Nat.sub_diag. cbn [length nth]. rewrite (proj2 (Nat.ltb_lt 0 (S (length r)))) by lia. rewrite Ev. reflexivity.
Qed.
Lemma redirect_len look r i p q : redirect look i r p = Ok q -> forall j, j < length r -> look (nth j r 0) <> None -> i + j < length p.
Proof.
  revert i p. induction r as [|v r IH]; intros i p E [|j] Hj Hl; cbn in Hj; try lia; cbn [redirect] in E.
  - cbn in Hl. destruct (look v); [|congruence]. destruct (Nat.ltb_spec i (length p)); [lia|discriminate].
  - cbn in Hl. destruct (look v).
    + destruct (Nat.ltb_spec i (length p)); [|discriminate]. specialize (IH _ _ E j ltac:(lia) Hl). rewrite upd_len in IH. lia.
    + specialize (IH _ _ E j ltac:(lia) Hl). lia.
Qed.
Lemma redirect_throws look r i p : redirect look i r p <> UB.
Proof. revert i p. induction r as [|v r IH]; intros i p; cbn [redirect]; [discriminate|]. destruct (look v); [|apply IH]. destruct (i <? length p); [apply IH|discriminate]. Qed.

Lemma truth_not_UB l : truth l <> UB.
Proof. destruct l as [|a [|]]; discriminate. Qed.
Lemma choose_in all i l b : choose all i l = Ok b -> In b l.
Proof.
  unfold choose. destruct l as [|a [|c l]]; [discriminate|intro H; injection H as <-; now left|]. cbn [at_ nth_error bind]. intro H.
  match type of H with bind ?X _ = _ => destruct X as [[|]| |]; try discriminate end; cbn [bind at_ nth_error] in H; injection H as <-; cbn; auto.
Qed.
Lemma choose_nil all i : choose all i [] = Throw.
Proof. reflexivity. Qed.
Lemma bind_not_UB {X Y} (a : outcome X) (f : X -> outcome Y) : a <> UB -> (forall x, f x <> UB) -> bind a f <> UB.
Proof. intros H1 H2. destruct a; [apply H2|discriminate|congruence]. Qed.
Lemma choose_not_UB all i l : choose all i l <> UB.
Proof.
  unfold choose. destruct l as [|a [|c l]]; [discriminate|discriminate|].
  repeat first [discriminate|apply at_not_UB|apply truth_not_UB|apply bind_not_UB|match goal with |- forall _, _ => intro | |- (if ?b then _ else _) <> _ => destruct b end].
Qed.
Lemma choose_beside all i l a : 0 < i < length all - 1 -> 2 <= length l -> nth 0 l 0 = a ->
  (exists p, at_ all (i - 1) = Ok p /\ at_ p 0 = Ok a) \/ (exists p b, at_ all (i - 1) = Ok p /\ at_ p 0 = Ok b /\ exists n, at_ all (i + 1) = Ok n /\ at_ n 0 = Ok a) -> choose all i l = Ok a.
Proof.
  intros Hi Hl Ha H. unfold choose. destruct l as [|a' [|c l]]; cbn in Hl; try lia. cbn in Ha. subst a'. change (at_ (a :: c :: l) 0) with (Ok a). cbn [bind].
  rewrite (proj2 (Nat.eqb_neq i 0)), (proj2 (Nat.ltb_lt i (length all - 1))) by lia.
  assert (Hb : beside a a = true) by (unfold beside; rewrite (proj2 (Nat.leb_le a (a + 1))) by lia; reflexivity).
  destruct H as [(p & E1 & E2)|(p & b & E1 & E2 & n & E3 & E4)]; rewrite E1; cbn [bind]; rewrite E2; cbn [bind]; [rewrite Hb; reflexivity|].
  destruct (beside b a); cbn [bind]; [reflexivity|]. rewrite E3; cbn [bind]; rewrite E4; cbn [bind]. rewrite Hb; reflexivity.
Qed.

(* --- on the reals --- *)
Section Run.
Variables (G : R -> R) (vmapM vmapP vmapO : list nat) (x y : list R).
Hypothesis Hin : forall v, In v vmapO -> v < length x /\ v < length y.
Local Notation xO := (map (fun v => nth v x 0%R) vmapO).
Local Notation yO := (map (fun v => nth v y 0%R) vmapO).
Local Notation run := (make_periodic (exact G) (1 / 1000)%R vmapM vmapP vmapO x y xO yO).
Definition facing (a b : nat) : bool := opposite_to (exact G) (1 / 1000)%R (nth a x 0%R) (nth a y 0%R) (nth b x 0%R) (nth b y 0%R).
Definition cand (a : nat) : list nat := filter (facing a) vmapO.
Lemma facing_ok a b : facing a b = true <-> (Rabs (nth b y 0 - nth a y 0) < 1 / 1000 /\ Rabs (nth b x 0 - nth a x 0) > 1000)%R.
Proof.
  unfold facing, opposite_to. cbn [exact flt fabs fsub fofZ]. rewrite andb_true_iff. unfold Rltb. destruct (Rlt_dec _ _) as [A|A], (Rlt_dec _ _) as [B|B]; split; intros (? & ?); try discriminate; try tauto; split; auto; try lra.
Qed.
Lemma cand_ok a b : In b (cand a) <-> partner vmapO x y a b.
Proof. unfold cand, partner. rewrite filter_In, facing_ok. tauto. Qed.
Lemma combine_map {X Y Z} (f : X -> Y) (g : X -> Z) l : combine (map f l) (map g l) = map (fun v => (f v, g v)) l.
Proof. induction l; cbn; congruence. Qed.
Lemma candidates_ok a : In a vmapO -> candidates (exact G) (1 / 1000)%R vmapO x y xO yO a = Ok (cand a).
Proof.
  intro Ha. destruct (Hin a Ha) as (H1 & H2). unfold candidates. rewrite (at_nth x a 0%R H1), (at_nth y a 0%R H2). cbn [bind]. f_equal.
  rewrite combine_map. unfold cand, facing. generalize (opposite_to (exact G) (1 / 1000)%R (nth a x 0%R) (nth a y 0%R)). intro p. clear. induction vmapO as [|v l IH]; [reflexivity|].
  cbn [map combine filter fst snd]. destruct (p (nth v x 0%R) (nth v y 0%R)); cbn [map snd]; [f_equal|]; apply IH.
Qed.
Local Notation all := (map cand vmapO).
Lemma run_eq : run = bind (each_entry (fun i => bind (at_ all i) (choose all i)) (seq 0 (length vmapO))) (fun partners => bind (redirect (lookup (keys_of vmapO) partners) 0 vmapM vmapP) (fun P => Ok (vmapM, P))).
Proof. unfold make_periodic. rewrite !map_length, !Nat.eqb_refl. cbn [require andb]. rewrite (each_all _ cand) by (intros; now apply candidates_ok). cbn [bind]. rewrite map_length. reflexivity. Qed.
Lemma run_not_UB : run <> UB.
Proof.
  rewrite run_eq. apply bind_not_UB.
  - generalize (seq 0 (length vmapO)). induction l as [|i l IH]; [discriminate|]. cbn [each_entry]. apply bind_not_UB; [apply bind_not_UB; [apply at_not_UB|intro; apply choose_not_UB]|]. intro b. apply bind_not_UB; [exact IH|discriminate].
  - intro p. apply bind_not_UB; [apply redirect_throws|discriminate].
Qed.
Lemma no_partner_throws a : In a vmapO -> (forall b, ~ partner vmapO x y a b) -> run = Throw.
Proof.
  intros Ha Hno. rewrite run_eq. rewrite (each_throw _ (seq 0 (length vmapO))); [reflexivity| |].
  - destruct (In_nth vmapO a 0 Ha) as (i & Hi & Ei). exists i. split; [apply in_seq; lia|]. rewrite (at_nth all i []) by (rewrite map_length; exact Hi). cbn [bind].
    rewrite (nth_indep all [] (cand 0)) by (rewrite map_length; exact Hi). rewrite (map_nth cand), Ei. destruct (cand a) as [|b l] eqn:E; [reflexivity|]. exfalso. apply (Hno b). apply cand_ok. rewrite E. now left.
  - intros i _. apply bind_not_UB; [apply at_not_UB|intro; apply choose_not_UB].
Qed.
Lemma run_parts M P : run = Ok (M, P) -> exists partners, length partners = length vmapO /\ (forall j, j < length vmapO -> choose all j (cand (nth j vmapO 0)) = Ok (nth j partners 0)) /\
  M = vmapM /\ redirect (lookup (keys_of vmapO) partners) 0 vmapM vmapP = Ok P.
Proof.
  rewrite run_eq. destruct (each_entry _ (seq 0 (length vmapO))) as [ps| |] eqn:E; try discriminate. cbn [bind]. destruct (redirect _ 0 vmapM vmapP) as [q| |] eqn:Eq; try discriminate. intro H. injection H as <- <-.
  apply each_ok in E. pose proof (Forall2_len _ _ _ E) as L. rewrite seq_length in L. exists ps. split; [lia|]. split; [|split; [reflexivity|exact Eq]].
  intros j Hj. pose proof (Forall2_nth _ _ _ j 0 0 E ltac:(rewrite seq_length; exact Hj)) as X. cbn beta in X. rewrite seq_nth in X by exact Hj. rewrite Nat.add_0_l in X.
  rewrite (at_nth all j []) in X by (rewrite map_length; exact Hj). cbn [bind] in X. rewrite (nth_indep all [] (cand 0)) in X by (rewrite map_length; exact Hj). rewrite (map_nth cand) in X. exact X.
Qed.
Lemma redirect_spec partners P : NoDup vmapO -> length partners = length vmapO -> (forall j, j < length vmapO -> In (nth j partners 0) (cand (nth j vmapO 0))) ->
  redirect (lookup (keys_of vmapO) partners) 0 vmapM vmapP = Ok P -> redirected vmapM vmapP vmapO x y P.
Proof.
  intros Hn HL Hp EP. destruct (redirect_ok (lookup (keys_of vmapO) partners) vmapM 0 vmapP (redirect_len _ _ _ _ _ EP)) as (q & Eq & Lq & Hq). assert (q = P) by congruence. subst q.
  rewrite (keys_nodup _ Hn) in *. split; [exact Lq|]. intros i Hi. specialize (Hq i Hi). rewrite Nat.sub_0_r in Hq. cbn [Nat.leb andb] in Hq. rewrite Hq. clear Hq. split.
  - intros (H1 & H2). rewrite (proj2 (Nat.ltb_lt i _) H1). destruct (lookup_nth vmapO partners _ Hn ltac:(lia) H2) as (j & Hj & Ej & ->). rewrite <- Ej at 1. apply cand_ok. apply Hp. exact Hj.
  - intro H. destruct (Nat.ltb_spec i (length vmapM)) as [H1|H1]; [|reflexivity]. rewrite lookup_none by tauto. reflexivity.
Qed.
Lemma run_sound M P : NoDup vmapO -> run = Ok (M, P) -> M = vmapM /\ redirected vmapM vmapP vmapO x y P.
Proof.
  intros Hn E. destruct (run_parts M P E) as (ps & L & Hc & HM & EP). split; [exact HM|]. apply (redirect_spec ps P Hn L); [|exact EP]. intros j Hj. eapply choose_in. apply Hc. exact Hj.
Qed.
Lemma run_pairs : NoDup vmapO -> length vmapP = length vmapM -> (forall a, In a vmapO -> exists! b, partner vmapO x y a b) -> exists P, run = Ok (vmapM, P) /\ redirected vmapM vmapP vmapO x y P.
Proof.
  intros Hn HL Hu.
  assert (H1 : forall a, In a vmapO -> length (cand a) = 1).
  { intros a Ha. destruct (Hu a Ha) as (b & Hb & Hb'). assert (ND : NoDup (cand a)) by (apply NoDup_filter; exact Hn). apply cand_ok in Hb. destruct (cand a) as [|c [|d l]] eqn:E; [destruct Hb|reflexivity|].
    exfalso. assert (c = d). { rewrite <- (Hb' c) by (apply cand_ok; rewrite E; now left). apply Hb'. apply cand_ok. rewrite E. right; now left. } subst. inversion ND as [|? ? Hx]. apply Hx. now left. }
  assert (E : run <> Throw).
  { rewrite run_eq. rewrite (each_all _ (fun i => nth 0 (cand (nth i vmapO 0)) 0)).
    - cbn [bind]. match goal with |- bind (redirect ?lk 0 _ _) _ <> _ => destruct (redirect_ok lk vmapM 0 vmapP) as (q & -> & _) end; [|discriminate]. intros j Hj _. lia.
    - intros i Hi. apply in_seq in Hi. rewrite (at_nth all i []) by (rewrite map_length; lia). cbn [bind]. rewrite (nth_indep all [] (cand 0)) by (rewrite map_length; lia). rewrite (map_nth cand).
      pose proof (H1 (nth i vmapO 0) ltac:(apply nth_In; lia)) as L. destruct (cand (nth i vmapO 0)) as [|c [|? ?]]; cbn in L; try lia. reflexivity. }
  destruct run as [[M P]| |] eqn:ER; [|congruence|exfalso; exact (run_not_UB ER)]. destruct (run_sound M P Hn ER) as (-> & HP). exists P. split; [reflexivity|exact HP].
Qed.
(* two nodes of the same place, one after the other in the list *)
Lemma shared M P j : NoDup vmapO -> run = Ok (M, P) -> 0 < j -> S (S j) < length vmapO -> 2 <= length (cand (nth j vmapO 0)) -> cand (nth (S j) vmapO 0) = cand (nth j vmapO 0) ->
  forall i i', i < length vmapM -> i' < length vmapM -> nth i vmapM 0 = nth j vmapO 0 -> nth i' vmapM 0 = nth (S j) vmapO 0 -> nth i P 0 = nth i' P 0.
Proof.
  intros Hn E Hj Hj2 Hc Ec i i' Hi Hi' Ei Ei'. destruct (run_parts M P E) as (ps & L & Hch & _ & EP).
  set (l := cand (nth j vmapO 0)) in *. set (a := nth 0 l 0).
  assert (Eall : forall k, k < length vmapO -> at_ all k = Ok (cand (nth k vmapO 0))) by (intros k Hk; rewrite (at_nth all k []) by (rewrite map_length; exact Hk); rewrite (nth_indep all [] (cand 0)) by (rewrite map_length; exact Hk); now rewrite (map_nth cand)).
  assert (Ea : at_ l 0 = Ok a) by (unfold a; apply at_nth; lia).
  assert (C2 : nth (S j) ps 0 = a).
  { pose proof (Hch (S j) ltac:(lia)) as X. rewrite Ec in X. rewrite (choose_beside all (S j) l a) in X; [congruence|rewrite map_length; lia|exact Hc|reflexivity|]. left. exists l. split; [|exact Ea]. replace (S j - 1) with j by lia. apply Eall. lia. }
  assert (C1 : nth j ps 0 = a).
  { pose proof (Hch j ltac:(lia)) as X. pose proof (Hch (j - 1) ltac:(lia)) as Y. fold l in X. destruct (cand (nth (j - 1) vmapO 0)) as [|b0 r0] eqn:E0; [discriminate|].
    rewrite (choose_beside all j l a) in X; [congruence|rewrite map_length; lia|exact Hc|reflexivity|]. right. exists (b0 :: r0), b0. split; [rewrite Eall by lia; now rewrite E0|]. split; [reflexivity|]. exists l. split; [|exact Ea]. replace (j + 1) with (S j) by lia. rewrite Eall by lia. now rewrite Ec. }
  assert (HL : forall k, k < length vmapO -> lookup (keys_of vmapO) ps (nth k vmapO 0) = Some (nth k ps 0)).
  { intros k Hk. rewrite (keys_nodup _ Hn). destruct (lookup_nth vmapO ps (nth k vmapO 0) Hn ltac:(lia) ltac:(now apply nth_In)) as (k' & Hk' & Ek & ->). f_equal. f_equal. apply (proj1 (NoDup_nth vmapO 0) Hn); assumption. }
  pose proof (redirect_len _ _ _ _ _ EP) as Hlen. destruct (redirect_ok _ _ _ _ Hlen) as (q & Eq & Lq & Hq). assert (q = P) by congruence. subst q.
  assert (B1 : i < length vmapP) by (apply (Hlen i Hi); rewrite Ei, HL by lia; discriminate). assert (B2 : i' < length vmapP) by (apply (Hlen i' Hi'); rewrite Ei', HL by lia; discriminate).
  rewrite (Hq i B1), (Hq i' B2), !Nat.sub_0_r. cbn [Nat.leb andb]. rewrite (proj2 (Nat.ltb_lt i _) Hi), (proj2 (Nat.ltb_lt i' _) Hi'), Ei, Ei', !HL by lia. congruence.
Qed.
Lemma cand_picks a l : picks (partner vmapO x y a) vmapO l -> l = cand a.
Proof.
  unfold cand. assert (Hall : forall b, In b vmapO -> facing a b = true <-> partner vmapO x y a b) by (intros b Hb; rewrite facing_ok; unfold partner; tauto). revert l Hall. generalize (partner vmapO x y a). intros Q. generalize vmapO. clear.
  intros v l H Hp. revert H. induction Hp as [|b v l Hb _ IH|b v l Hb _ IH]; intro H; [reflexivity| |]; cbn [filter].
  - rewrite (proj2 (H b (or_introl eq_refl)) Hb). f_equal. apply IH. intros; apply H; now right.
  - destruct (facing a b) eqn:E; [exfalso; apply Hb; apply (H b (or_introl eq_refl)); exact E|]. apply IH. intros; apply H; now right.
Qed.
Lemma picks_cand a : picks (partner vmapO x y a) vmapO (cand a).
Proof.
  unfold cand. assert (Hall : forall b, In b vmapO -> facing a b = true <-> partner vmapO x y a b) by (intros b Hb; rewrite facing_ok; unfold partner; tauto). revert Hall. generalize (partner vmapO x y a). intros Q. generalize vmapO. clear.
  intro v. induction v as [|b v IH]; intro H; cbn [filter]; [constructor|]. destruct (facing a b) eqn:E; constructor; try (apply IH; intros; apply H; now right); [now apply (H b (or_introl eq_refl))|].
  intro Q1. apply (H b (or_introl eq_refl)) in Q1. congruence.
Qed.
Lemma beside_near a b : beside a b = true <-> near a b.
Proof. unfold beside, near. rewrite andb_true_iff, !Nat.leb_le. lia. Qed.
Lemma choose_chosen j p before after : j < length vmapO -> (forall k, k < length vmapO -> cand (nth k vmapO 0) <> []) -> choose all j (cand (nth j vmapO 0)) = Ok p ->
  (0 < j -> before = cand (nth (j - 1) vmapO 0)) -> (S j < length vmapO -> after = cand (nth (S j) vmapO 0)) ->
  chosen (length vmapO) j before (cand (nth j vmapO 0)) after p.
Proof.
  intros Hj Hne E Hb Ha. assert (Eall : forall k, k < length vmapO -> at_ all k = Ok (cand (nth k vmapO 0))) by (intros k Hk; rewrite (at_nth all k []) by (rewrite map_length; exact Hk); rewrite (nth_indep all [] (cand 0)) by (rewrite map_length; exact Hk); now rewrite (map_nth cand)).
  unfold choose in E. unfold chosen. destruct (cand (nth j vmapO 0)) as [|a [|b l]]; [discriminate|congruence|]. change (at_ (a :: b :: l) 0) with (Ok a) in E. change (at_ (a :: b :: l) 1) with (Ok b) in E. cbn [bind] in E. rewrite map_length in E.
  assert (NB : forall c, (beside c a = true /\ near c a) \/ (beside c a = false /\ ~ near c a)) by (intro c; pose proof (beside_near c a); destruct (beside c a); [left; tauto|right; split; [reflexivity|intro H1; apply H in H1; discriminate]]).
  destruct (Nat.eqb_spec j 0) as [->|Hj0].
  - destruct (Nat.le_gt_cases (length vmapO) 1) as [H1|H1]; [rewrite at_out in E by (rewrite map_length; lia); discriminate|]. rewrite (Eall 1 H1) in E. rewrite (Ha H1). pose proof (Hne 1 H1) as H2. cbn [bind] in E.
    destruct (cand (nth 1 vmapO 0)) as [|c [|c' m]]; [congruence| |discriminate]. cbn [map truth bind] in E. exists c. split; [reflexivity|]. destruct (NB c) as [(E1 & E2)|(E1 & E2)]; rewrite E1 in E; injection E as <-; tauto.
  - destruct (Nat.eqb_spec j (length vmapO - 1)) as [Hl|Hl].
    + rewrite (proj2 (Nat.ltb_ge j (length vmapO - 1))) in E by lia. rewrite (Eall (j - 1)) in E by lia. rewrite Hb by lia. pose proof (Hne (j - 1) ltac:(lia)) as H2. cbn [bind] in E.
      destruct (cand (nth (j - 1) vmapO 0)) as [|c [|c' m]]; [congruence| |discriminate]. cbn [map truth bind] in E. exists c. split; [reflexivity|]. destruct (NB c) as [(E1 & E2)|(E1 & E2)]; rewrite E1 in E; injection E as <-; tauto.
    + rewrite (proj2 (Nat.ltb_lt j (length vmapO - 1))) in E by lia. rewrite (Eall (j - 1)) in E by lia. rewrite Hb, Ha by lia. replace (j + 1) with (S j) in E by lia. pose proof (Hne (j - 1) ltac:(lia)) as H2. pose proof (Hne (S j) ltac:(lia)) as H3. cbn [bind] in E.
      rewrite (Eall (S j)) in E by lia. destruct (cand (nth (j - 1) vmapO 0)) as [|c m]; [congruence|]. destruct (cand (nth (S j) vmapO 0)) as [|c' m']; [congruence|]. change (at_ (c :: m) 0) with (Ok c) in E. cbn [bind] in E.
      exists c, c'. split; [reflexivity|]. split; [reflexivity|]. destruct (NB c) as [(E1 & E2)|(E1 & E2)]; rewrite E1 in E; [injection E as <-; tauto|]. cbn [bind] in E. change (at_ (c' :: m') 0) with (Ok c') in E. cbn [bind] in E.
      destruct (NB c') as [(E3 & E4)|(E3 & E4)]; rewrite E3 in E; injection E as <-; tauto.
Qed.
Lemma run_choice M P j before after i : NoDup vmapO -> run = Ok (M, P) -> j < length vmapO -> i < length vmapM -> nth i vmapM 0 = nth j vmapO 0 ->
  (0 < j -> before = cand (nth (j - 1) vmapO 0)) -> (S j < length vmapO -> after = cand (nth (S j) vmapO 0)) -> chosen (length vmapO) j before (cand (nth j vmapO 0)) after (nth i P 0).
Proof.
  intros Hn E Hj Hi Ei Hb Ha. destruct (run_parts M P E) as (ps & L & Hch & _ & EP).
  assert (HL : lookup (keys_of vmapO) ps (nth j vmapO 0) = Some (nth j ps 0)).
  { rewrite (keys_nodup _ Hn). destruct (lookup_nth vmapO ps (nth j vmapO 0) Hn ltac:(lia) ltac:(now apply nth_In)) as (k' & Hk' & Ek & ->). f_equal. f_equal. apply (proj1 (NoDup_nth vmapO 0) Hn); assumption. }
  pose proof (redirect_len _ _ _ _ _ EP) as Hlen. destruct (redirect_ok _ _ _ _ Hlen) as (q & Eq & Lq & Hq). assert (q = P) by congruence. subst q.
  assert (B1 : i < length vmapP) by (apply (Hlen i Hi); rewrite Ei, HL; discriminate).
  rewrite (Hq i B1), !Nat.sub_0_r. cbn [Nat.leb andb]. rewrite (proj2 (Nat.ltb_lt i _) Hi), Ei, HL. apply choose_chosen; auto.
  intros k Hk E0. pose proof (Hch k Hk) as X. rewrite E0 in X. discriminate.
Qed.
Lemma run_succeeds : length vmapP = length vmapM -> 2 <= length vmapO -> (forall a, In a vmapO -> exists b, partner vmapO x y a b) ->
  (forall a b b', In a [nth 0 vmapO 0; nth 1 vmapO 0; nth (length vmapO - 2) vmapO 0; nth (length vmapO - 1) vmapO 0] -> partner vmapO x y a b -> partner vmapO x y a b' -> b = b') -> NoDup vmapO ->
  exists P, run = Ok (vmapM, P).
Proof.
  intros HL H2 He Hu Hn. rewrite run_eq.
  assert (Eall : forall k, k < length vmapO -> at_ all k = Ok (cand (nth k vmapO 0))) by (intros k Hk; rewrite (at_nth all k []) by (rewrite map_length; exact Hk); rewrite (nth_indep all [] (cand 0)) by (rewrite map_length; exact Hk); now rewrite (map_nth cand)).
  assert (Hne : forall k, k < length vmapO -> cand (nth k vmapO 0) <> []). { intros k Hk E. destruct (He (nth k vmapO 0) (nth_In _ _ Hk)) as (b & Hb). apply cand_ok in Hb. rewrite E in Hb. destruct Hb. }
  assert (H1 : forall k, In k [0; 1; length vmapO - 2; length vmapO - 1] -> exists b, cand (nth k vmapO 0) = [b]).
  { intros k Hk. assert (Hk' : k < length vmapO) by (cbn in Hk; lia). pose proof (Hne k Hk') as X. assert (ND : NoDup (cand (nth k vmapO 0))) by (apply NoDup_filter; exact Hn).
    destruct (cand (nth k vmapO 0)) as [|c [|d l]] eqn:E; [congruence|exists c; reflexivity|]. exfalso. assert (c = d).
    { apply (Hu (nth k vmapO 0)); [cbn in Hk; cbn; intuition (subst; auto)|apply cand_ok; rewrite E; now left|apply cand_ok; rewrite E; right; now left]. } subst. inversion ND as [|? ? Hx]. apply Hx. now left. }
  assert (HC : forall i, In i (seq 0 (length vmapO)) -> exists b, bind (at_ all i) (choose all i) = Ok b).
  { intros i Hi. apply in_seq in Hi. rewrite (Eall i) by lia. cbn [bind]. destruct (Nat.eq_dec i 0) as [->|Hi0]; [destruct (H1 0 ltac:(cbn; auto)) as (b & ->); exists b; reflexivity|].
    destruct (Nat.eq_dec i (length vmapO - 1)) as [->|Hi1]; [destruct (H1 (length vmapO - 1) ltac:(cbn; auto)) as (b & ->); exists b; reflexivity|].
    pose proof (Hne i ltac:(lia)) as X. unfold choose. destruct (cand (nth i vmapO 0)) as [|c [|d l]]; [congruence|exists c; reflexivity|]. change (at_ (c :: d :: l) 0) with (Ok c). change (at_ (c :: d :: l) 1) with (Ok d). cbn [bind].
    rewrite (proj2 (Nat.eqb_neq i 0) Hi0), map_length, (proj2 (Nat.ltb_lt i (length vmapO - 1))) by lia. rewrite (Eall (i - 1)), (Eall (i + 1)) by lia. pose proof (Hne (i - 1) ltac:(lia)) as Y1. pose proof (Hne (i + 1) ltac:(lia)) as Y2. cbn [bind].
    destruct (cand (nth (i - 1) vmapO 0)) as [|p1 ?]; [congruence|]. destruct (cand (nth (i + 1) vmapO 0)) as [|p2 ?]; [congruence|]. cbn [at_ nth_error bind]. destruct (beside p1 c); cbn [bind]; [exists c; reflexivity|]. destruct (beside p2 c); [exists c|exists d]; reflexivity. }
  destruct (each_entry (fun i => bind (at_ all i) (choose all i)) (seq 0 (length vmapO))) as [ps| |] eqn:E.
  - cbn [bind]. match goal with |- context [redirect ?lk 0 _ _] => destruct (redirect_ok lk vmapM 0 vmapP) as (q & -> & _) end; [intros; lia|]. exists q. reflexivity.
  - exfalso. revert HC E. generalize (seq 0 (length vmapO)). induction l as [|i l IH]; intros HC E; [discriminate|]. cbn [each_entry] in E. destruct (HC i (or_introl eq_refl)) as (b & Eb). rewrite Eb in E. cbn [bind] in E. apply IH; [intros; apply HC; now right|]. destruct (each_entry _ l); [discriminate|reflexivity|discriminate].
  - exfalso. revert HC E. generalize (seq 0 (length vmapO)). induction l as [|i l IH]; intros HC E; [discriminate|]. cbn [each_entry] in E. destruct (HC i (or_introl eq_refl)) as (b & Eb). rewrite Eb in E. cbn [bind] in E. apply IH; [intros; apply HC; now right|]. destruct (each_entry _ l); [discriminate|discriminate|reflexivity].
Qed.
Lemma same_place a b : nth a x 0%R = nth b x 0%R -> nth a y 0%R = nth b y 0%R -> cand a = cand b.
Proof. intros E1 E2. unfold cand. apply filter_ext. intro c. unfold facing. rewrite E1, E2. reflexivity. Qed.
Lemma partner_sym a b : In a vmapO -> partner vmapO x y a b -> partner vmapO x y b a.
Proof. intros Ha (Hb & H1 & H2). split; [exact Ha|]. rewrite (Rabs_minus_sym (nth a y 0%R)), (Rabs_minus_sym (nth a x 0%R)). auto. Qed.
End Run.

(* --- correctBCTable --- *)
Section Table.
Variables (G : R -> R) (bcType : list (list Z)) (EToV : list (list nat)) (Verts : list (list R)) (tag : Z).
Hypothesis Hrows : length bcType <= length EToV.
Hypothesis Hbc : forall row, In row bcType -> 3 <= length row.
Hypothesis HE : forall ends, In ends EToV -> 3 <= length ends /\ forall v, In v ends -> v < length Verts.
Hypothesis HV : forall p, In p Verts -> 2 <= length p.
Local Notation micro := (1 / 1000000)%R.
Definition vx (e f : nat) : R := nth 0 (nth (nth f (nth e EToV []) 0) Verts []) 0%R.
Definition opened (e f : nat) : bool := on_open_line (exact G) micro (vx e f) (vx e (if f =? 2 then 0 else S f)).

Lemma side_run e f row : e < length EToV -> f < 3 -> 3 <= length row ->
  correct_side (exact G) micro Verts tag (nth e EToV []) (f, [f; if f =? 2 then 0 else S f]) row = Ok (if opened e f then upd row f tag else row).
Proof.
  intros He Hf Hr. destruct (HE (nth e EToV []) (nth_In _ _ He)) as (HL & Hv). unfold correct_side. cbn [snd fst]. change (at_ [f; if f =? 2 then 0 else S f] 0) with (Ok f). change (at_ [f; if f =? 2 then 0 else S f] 1) with (Ok (if f =? 2 then 0 else S f)). cbn [bind].
  set (f' := if f =? 2 then 0 else S f). assert (Hf' : f' < 3) by (unfold f'; destruct (Nat.eqb_spec f 2); lia).
  rewrite (at_nth _ f 0), (at_nth _ f' 0) by lia. cbn [bind].
  assert (B : forall j, j < 3 -> nth j (nth e EToV []) 0 < length Verts) by (intros j Hj; apply Hv, nth_In; lia).
  rewrite (at_nth Verts _ []), (at_nth Verts (nth f' _ 0) []) by (apply B; assumption). cbn [bind].
  pose proof (HV _ (nth_In Verts [] (B f Hf))) as L1. pose proof (HV _ (nth_In Verts [] (B f' Hf'))) as L2.
  rewrite (at_nth _ 0 0%R), (at_nth _ 1 0%R) by lia. cbn [bind]. rewrite (at_nth _ 0 0%R) by lia. cbn [bind]. rewrite (at_nth _ 1 0%R) by lia. cbn [bind].
  unfold opened. fold f'. unfold vx. rewrite (proj2 (Nat.ltb_lt f (length row))) by lia. destruct (on_open_line _ _ _ _); reflexivity.
Qed.
Lemma table_run : exists bc, correct_table (exact G) micro bcType EToV Verts tag = Ok bc /\ length bc = length bcType /\
  forall e, e < length bcType -> length (nth e bc []) = length (nth e bcType []) /\
  (forall f, 3 <= f -> nth f (nth e bc []) 0%Z = nth f (nth e bcType []) 0%Z) /\
  forall f, f < 3 -> nth f (nth e bc []) 0%Z = if opened e f then tag else nth f (nth e bcType []) 0%Z.
Proof.
  set (set_ e f row := if opened e f then upd row f tag else row : list Z).
  set (row' := fun e => set_ e 2 (set_ e 1 (set_ e 0 (nth e bcType [])))).
  assert (SL : forall e f row, length (set_ e f row) = length row) by (intros e f row; unfold set_; destruct (opened e f); [apply upd_len|reflexivity]).
  exists (map row' (seq 0 (length bcType))). split; [|split; [now rewrite map_length, seq_length|]].
  - unfold correct_table. apply each_all. intros e He. apply in_seq in He. rewrite (at_nth bcType e []), (at_nth EToV e []) by lia. cbn [bind correct_row].
    pose proof (Hbc (nth e bcType []) ltac:(apply nth_In; lia)) as L.
    pose proof (side_run e 0 (nth e bcType []) ltac:(lia) ltac:(lia) L) as S0. cbn [Nat.eqb] in S0. rewrite S0. cbn [bind]. fold (set_ e 0 (nth e bcType [])).
    pose proof (side_run e 1 (set_ e 0 (nth e bcType [])) ltac:(lia) ltac:(lia) ltac:(rewrite SL; exact L)) as S1. cbn [Nat.eqb] in S1. rewrite S1. cbn [bind]. fold (set_ e 1 (set_ e 0 (nth e bcType []))).
    pose proof (side_run e 2 (set_ e 1 (set_ e 0 (nth e bcType []))) ltac:(lia) ltac:(lia) ltac:(rewrite !SL; exact L)) as S2. cbn [Nat.eqb] in S2. rewrite S2. cbn [bind]. reflexivity.
  - intros e He. rewrite (nth_indep _ [] (row' 0)) by (rewrite map_length, seq_length; exact He). rewrite (map_nth row'), seq_nth by exact He. cbn [Nat.add]. unfold row'.
    split; [now rewrite !SL|]. pose proof (Hbc (nth e bcType []) ltac:(apply nth_In; lia)) as L.
    assert (SN : forall f f' row, 3 <= length row -> f' < 3 -> nth f (set_ e f' row) 0%Z = if (f =? f') && opened e f' then tag else nth f row 0%Z).
    { intros f f' row Hr Hf'. unfold set_. destruct (opened e f'); [|now rewrite andb_false_r]. rewrite andb_true_r. destruct (Nat.eqb_spec f f') as [->|Hne]; [apply upd_same; lia|apply upd_other; auto]. }
    split; intros f Hf; rewrite !SN by (rewrite ?SL; lia).
    + rewrite (proj2 (Nat.eqb_neq f 2)), (proj2 (Nat.eqb_neq f 1)), (proj2 (Nat.eqb_neq f 0)) by lia. reflexivity.
    + destruct f as [|[|[|f]]]; [| | |lia]; cbn [Nat.eqb andb]; reflexivity.
Qed.
Lemma opened_ok e f : opened e f = true <-> let mid := ((vx e f + vx e (if f =? 2 then 0 else S f)) / 2)%R in (Rabs mid < 1 / 1000000 \/ Rabs (mid - 8000) < 1 / 1000000)%R.
Proof.
  unfold opened, on_open_line. cbn [exact flt fabs fsub fofZ fmul fdiv fadd]. set (a := vx e f). set (b := vx e _). cbv zeta. replace (1 / 2 * (a + b) - 0)%R with ((a + b) / 2)%R by field. replace (1 / 2 * (a + b))%R with ((a + b) / 2)%R by field.
  rewrite orb_true_iff. unfold Rltb. destruct (Rlt_dec _ _), (Rlt_dec _ _); split; intros [?|?]; try discriminate; try tauto; auto.
Qed.
End Table.
