From Coq Require Import List Arith Bool Lia Permutation Sorted.
From Verif Require Import Lib Outcome TopoModel TopoSpec TopoProofs IslModel.
From Coq Require Import List.
Import ListNotations.

Lemma perm_pull {T} (a l x y : list T) : Permutation l (x ++ y) -> Permutation (a ++ l) (x ++ a ++ y).
Proof. intros H. rewrite (Permutation_app_swap_app x a y). apply Permutation_app_head, H. Qed.
Lemma perm_end {T} (l r : list T) : Permutation (l ++ []) (r ++ []) -> Permutation l r.
Proof. rewrite !app_nil_r. auto. Qed.
Ltac perm :=
  apply perm_end; rewrite <- ?app_assoc;
  repeat match goal with
  | |- Permutation ?a ?a => apply Permutation_refl
  | |- Permutation (?a ++ ?l) (?a ++ ?r) => apply Permutation_app_head
  | |- Permutation (?a ++ ?l) (?x ++ ?a ++ ?y) => apply (perm_pull a l x y)
  | |- Permutation (?a ++ ?l) (?x ++ ?z ++ ?a ++ ?y) => rewrite (app_assoc x z (a ++ y)); apply (perm_pull a l (x ++ z) y); rewrite <- ?app_assoc
  | |- Permutation (?a ++ ?l) (?x ++ ?z ++ ?w ++ ?a ++ ?y) => rewrite (app_assoc z w (a ++ y)), (app_assoc x (z ++ w) (a ++ y)); apply (perm_pull a l (x ++ z ++ w) y); rewrite <- ?app_assoc
  | |- Permutation (?a ++ ?l) (?x ++ ?z ++ ?w ++ ?v ++ ?a ++ ?y) => rewrite (app_assoc w v (a ++ y)), (app_assoc z (w ++ v) (a ++ y)), (app_assoc x (z ++ w ++ v) (a ++ y)); apply (perm_pull a l (x ++ z ++ w ++ v) y); rewrite <- ?app_assoc
  end.

Lemma flat_map_in_ext {S T} (f g : S -> list T) l : (forall x, In x l -> f x = g x) -> flat_map f l = flat_map g l.
Proof. induction l as [|x l IH]; intros H; cbn; auto. rewrite (H x) by (left; auto). rewrite IH; auto. intros; apply H; right; auto. Qed.
Lemma flat_seq_at {T} (f : nat -> list T) n i : i < n -> exists r, Permutation (flat_map f (seq 0 n)) (f i ++ r) /\
  forall g, (forall j, j <> i -> g j = f j) -> Permutation (flat_map g (seq 0 n)) (g i ++ r).
Proof.
  intros Hi. exists (flat_map f (seq 0 i) ++ flat_map f (seq (S i) (n - S i))).
  assert (E : seq 0 n = seq 0 i ++ [i] ++ seq (S i) (n - S i)).
  { replace n with (i + (1 + (n - S i))) at 1 by lia. rewrite seq_app, seq_app. cbn. do 3 f_equal; lia. }
  assert (G : forall g : nat -> list T, Permutation (flat_map g (seq 0 n)) (g i ++ flat_map g (seq 0 i) ++ flat_map g (seq (S i) (n - S i)))).
  { intros g. rewrite E, !flat_map_app. cbn [flat_map]. rewrite app_nil_r. perm. }
  split; [apply G|]. intros g Hg. rewrite G. apply Permutation_app_head.
  rewrite (flat_map_in_ext g f (seq 0 i)), (flat_map_in_ext g f (seq (S i) (n - S i))); auto; intros j Hj; apply in_seq in Hj; apply Hg; lia.
Qed.
Lemma take_perm {T} (l : list T) k x : nth_error l k = Some x -> Permutation l (x :: take l k).
Proof.
  unfold take. revert k. induction l as [|y l IH]; intros [|k] H; try discriminate; cbn in *.
  - injection H as ->. auto.
  - rewrite (IH k H) at 1. apply perm_swap.
Qed.
Lemma take_in {T} (l : list T) k x : In x (take l k) -> In x l.
Proof.
  unfold take. intros H. apply in_app_or in H as [H|H].
  - rewrite <- (firstn_skipn k l). apply in_or_app; auto.
  - rewrite <- (firstn_skipn (S k) l). apply in_or_app; auto.
Qed.

Section Proofs.
Context {X Pop : Type}.
Variable integrate : Pop -> list X -> Pop.
Variable evaluate : X -> X.
Variables (n : nat) (edge : nat -> nat -> Prop).
Notation state := (state X Pop).
Notation island := (island X Pop).
Notation msg := (msg X).
Notation step := (step integrate evaluate).
Notation seen := (seen evaluate).
Implicit Types s : state.

Definition act s i : bool := nth i (active s) false.
Definition out_at (l : list island) i : list msg := match nth_error l i with Some a => outgoing a | None => [] end.
Definition box_at (l : list island) i : list (nat * msg) := match nth_error l i with Some a => map (pair i) (inbox a) | None => [] end.
Definition see (d : nat * msg) : nat * msg := (fst d, seen (snd d)).
Definition deliveries (r : list (msg * list nat)) : list (nat * msg) := flat_map (fun e => spread (fst e) (snd e)) r.
Definition late (p : point) : bool := match p with Test | Poll _ | Send => false | _ => true end.
Definition joined (p : point) : bool := match p with Wait | Drain | Final _ | Done => true | _ => false end.
Definition waited (p : point) : bool := match p with Drain | Final _ | Done => true | _ => false end.
Definition drained (p : point) : bool := match p with Final _ | Done => true | _ => false end.
(** the islands whose last integration is not done yet, at the end *)
Definition to_do (p : point) : list nat := match p with Final l => l | Done => [] | _ => seq 0 n end.

Record inv s : Prop := {
  i_isl : length (isl s) = n;
  i_act : length (active s) = n;
  i_graph : is_graph n (topo s) (fun i j => edge i j /\ act s i = true /\ act s j = true);
  i_stop : forall i a, nth_error (isl s) i = Some a -> act s i = false -> doing a <> Running;
  i_exit : forall a, In a (isl s) -> doing a = Exited -> outgoing a = [];
  i_late : late (at_ s) = true -> forall i, act s i = false;
  i_join : joined (at_ s) = true -> forall a, In a (isl s) -> doing a = Exited;
  i_wait : waited (at_ s) = true -> downs s = [];
  i_drain : drained (at_ s) = true -> emigrants s = [];
  i_last : forall i a, nth_error (isl s) i = Some a -> drained (at_ s) = true -> In i (to_do (at_ s)) \/ inbox a = [];
  i_todo : forall i, In i (to_do (at_ s)) -> i < n;
  i_sent : Permutation (sent s) (flat_map (out_at (isl s)) (seq 0 n) ++ emigrants s ++ map fst (routed s));
  i_got : Permutation (map see (deliveries (routed s))) (map see (downs s ++ flat_map (box_at (isl s)) (seq 0 n)) ++ got s);
  i_ids : map id (sent s) = seq 0 (length (sent s));
  i_from : forall m, In m (sent s) -> from m < n;
  i_routed : forall m ns, In (m, ns) (routed s) -> NoDup ns /\ (forall j, In j ns -> edge (from m) j /\ j < n) /\
     forall j, j < n -> edge (from m) j -> In j ns \/ act s j = false \/ act s (from m) = false }.

(** changes of one island *)
Lemma out_set l i a j : i < length l -> out_at (set l i a) j = if j =? i then outgoing a else out_at l j.
Proof.
  intros Hi. unfold out_at. rewrite nth_error_set. apply Nat.ltb_lt in Hi. rewrite Hi, andb_true_r. destruct (j =? i); auto.
Qed.
Lemma box_set l i a j : i < length l -> box_at (set l i a) j = if j =? i then map (pair i) (inbox a) else box_at l j.
Proof.
  intros Hi. unfold box_at. rewrite nth_error_set. apply Nat.ltb_lt in Hi. rewrite Hi, andb_true_r. destruct (Nat.eqb_spec j i) as [->|]; auto.
Qed.
Lemma outs_at l i a : length l = n -> nth_error l i = Some a -> exists r, Permutation (flat_map (out_at l) (seq 0 n)) (outgoing a ++ r) /\
  forall b, Permutation (flat_map (out_at (set l i b)) (seq 0 n)) (outgoing b ++ r).
Proof.
  intros L H. assert (Hi : i < length l) by (eapply nth_error_lt; eauto).
  destruct (flat_seq_at (out_at l) n i) as (r & P & Q); [lia|]. exists r. split.
  - rewrite P. unfold out_at. rewrite H. auto.
  - intros b. rewrite (Q (out_at (set l i b))).
    + rewrite out_set, Nat.eqb_refl by auto. auto.
    + intros j Hj. rewrite out_set by auto. apply Nat.eqb_neq in Hj. rewrite Hj. auto.
Qed.
Lemma boxes_at l i a : length l = n -> nth_error l i = Some a -> exists r, Permutation (flat_map (box_at l) (seq 0 n)) (map (pair i) (inbox a) ++ r) /\
  forall b, Permutation (flat_map (box_at (set l i b)) (seq 0 n)) (map (pair i) (inbox b) ++ r).
Proof.
  intros L H. assert (Hi : i < length l) by (eapply nth_error_lt; eauto).
  destruct (flat_seq_at (box_at l) n i) as (r & P & Q); [lia|]. exists r. split.
  - rewrite P. unfold box_at. rewrite H. auto.
  - intros b. rewrite (Q (box_at (set l i b))).
    + rewrite box_set, Nat.eqb_refl by auto. auto.
    + intros j Hj. rewrite box_set by auto. apply Nat.eqb_neq in Hj. rewrite Hj. auto.
Qed.
Lemma in_set {T} (l : list T) i x y : In y (set l i x) -> y = x \/ In y l.
Proof.
  intros H. apply In_nth_error in H as (j & H). rewrite nth_error_set in H.
  destruct (_ && _)%bool; [injection H as <-; auto|right; eapply nth_error_In; eauto].
Qed.
Lemma set_outs (l : list island) i a b : length l = n -> nth_error l i = Some a -> outgoing b = outgoing a ->
  Permutation (flat_map (out_at (set l i b)) (seq 0 n)) (flat_map (out_at l) (seq 0 n)).
Proof. intros L H E. destruct (outs_at l i a L H) as (r & P & Q). rewrite (Q b), P, E. auto. Qed.
Lemma set_boxes (l : list island) i a b : length l = n -> nth_error l i = Some a -> inbox b = inbox a ->
  Permutation (flat_map (box_at (set l i b)) (seq 0 n)) (flat_map (box_at l) (seq 0 n)).
Proof. intros L H E. destruct (boxes_at l i a L H) as (r & P & Q). rewrite (Q b), P, E. auto. Qed.

(** a change of one island that keeps its messages and does not start it again *)
Lemma island_inv s i a b : inv s -> nth_error (isl s) i = Some a -> inbox b = inbox a -> outgoing b = outgoing a ->
  (doing a = Exited -> doing b = Exited) -> (doing b = Exited -> outgoing b = []) -> (act s i = false -> doing b <> Running) -> inv (with_island s i b).
Proof.
  intros I H E1 E2 E3 E4 E5. destruct I. assert (Hi : i < length (isl s)) by (eapply nth_error_lt; eauto).
  constructor; cbn [isl active topo emigrants downs at_ sent got routed with_island]; auto.
  - rewrite set_length; auto.
  - intros j c Hj. rewrite nth_error_set in Hj. destruct (_ && _)%bool eqn:B; [|eauto]. injection Hj as <-.
    apply andb_true_iff in B as [B _]. apply Nat.eqb_eq in B. subst j. auto.
  - intros c Hc. apply in_set in Hc as [->|Hc]; auto.
  - intros J c Hc. apply in_set in Hc as [->|Hc]; auto. apply E3. apply i_join0; auto. eapply nth_error_In; eauto.
  - intros j c Hj D. rewrite nth_error_set in Hj. destruct (_ && _)%bool eqn:B; [|eauto]. injection Hj as <-.
    apply andb_true_iff in B as [B _]. apply Nat.eqb_eq in B. subst j. rewrite E1. eauto.
  - rewrite (set_outs _ _ _ _ i_isl0 H E2). auto.
  - rewrite i_got0. apply Permutation_app_tail, Permutation_map, Permutation_app_head, Permutation_sym, set_boxes with a; auto.
Qed.
Lemma goto_inv s p : inv s -> (late p = true -> forall i, act s i = false) -> (joined p = true -> forall a, In a (isl s) -> doing a = Exited) ->
  (waited p = true -> downs s = []) -> (drained p = true -> emigrants s = []) ->
  (forall i a, nth_error (isl s) i = Some a -> drained p = true -> In i (to_do p) \/ inbox a = []) -> (forall i, In i (to_do p) -> i < n) -> inv (goto s p).
Proof. intros I H1 H2 H3 H4 H5 H6. destruct I. constructor; auto. Qed.

Lemma receive_inv s i a : inv s -> nth_error (isl s) i = Some a -> (act s i = false -> doing a <> Running) -> inv (receive integrate evaluate s i a).
Proof.
  intros I H E5. destruct I. assert (Hi : i < length (isl s)) by (eapply nth_error_lt; eauto).
  constructor; cbn [isl active topo emigrants downs at_ sent got routed receive]; auto.
  - rewrite set_length; auto.
  - intros j c Hj. rewrite nth_error_set in Hj. destruct (_ && _)%bool eqn:B; [|eauto]. injection Hj as <-.
    apply andb_true_iff in B as [B _]. apply Nat.eqb_eq in B. subst j. auto.
  - intros c Hc. apply in_set in Hc as [->|Hc]; auto. cbn. apply (i_exit0 a). eapply nth_error_In; eauto.
  - intros J c Hc. apply in_set in Hc as [->|Hc]; auto. cbn. apply i_join0; auto. eapply nth_error_In; eauto.
  - intros j c Hj D. rewrite nth_error_set in Hj. destruct (_ && _)%bool eqn:B; [|eauto]. injection Hj as <-. auto.
  - match goal with |- context [set (isl s) i ?b] => rewrite (set_outs _ _ a b i_isl0 H) end; auto.
  - destruct (boxes_at _ i a i_isl0 H) as (r & P & Q).
    match goal with |- context [set (isl s) i ?b] => rewrite (Q b) end. rewrite i_got0, P. cbn [inbox map app].
    rewrite !map_app, map_map. cbn [see fst snd]. set (z := map (fun m : msg => (i, seen m)) (inbox a)).
    change (map (fun x => see (i, x)) (inbox a)) with z. perm.
Qed.

Lemma routed_in s m ns : inv s -> In (m, ns) (routed s) -> In m (sent s).
Proof.
  intros I H. destruct I. eapply Permutation_in; [apply Permutation_sym, i_sent0|].
  apply in_or_app; right. apply in_or_app; right. apply in_map_iff. exists (m, ns). auto.
Qed.
Lemma emigrant_in s m : inv s -> In m (emigrants s) -> In m (sent s).
Proof.
  intros I H. destruct I. eapply Permutation_in; [apply Permutation_sym, i_sent0|].
  apply in_or_app; right. apply in_or_app; auto.
Qed.
Lemma sorted_nodup l : StronglySorted lt l -> NoDup l.
Proof. induction 1 as [|a l S IH H]; constructor; auto. intros K. rewrite Forall_forall in H. apply H in K. lia. Qed.
Lemma deliveries_snoc r m ns : deliveries (r ++ [(m, ns)]) = deliveries r ++ spread m ns.
Proof. unfold deliveries. rewrite flat_map_app. cbn. rewrite app_nil_r. auto. Qed.

Lemma send_inv s p s' : inv s -> (late p = true -> late (at_ s) = true) -> (joined p = true -> joined (at_ s) = true) ->
  (waited p = true -> waited (at_ s) = true) -> drained p = false -> (forall i, In i (to_do p) -> i < n) ->
  send s p = Some s' -> inv s'.
Proof.
  intros I Hl Hj Hw Hd Ht H. unfold send in H. destruct (emigrants s) as [|m r] eqn:Ee.
  - injection H as <-. destruct I. constructor; cbn [isl active topo emigrants downs at_ sent got routed]; auto; try congruence.
    + intros P i. exact (i_late0 (Hl P) i).
  - destruct (neighbors (topo s) (from m)) as [ns| | |] eqn:En; try discriminate. injection H as <-.
    assert (Im : In m (sent s)) by (apply emigrant_in; auto; rewrite Ee; left; auto). assert (I0 := I). destruct I.
    destruct (neighbors_total n (topo s) _ (from m) i_graph0 (i_from0 _ Im)) as (ns' & En' & Sn & Hn).
    assert (ns' = ns) by congruence. subst ns'.
    constructor; cbn [isl active topo emigrants downs at_ sent got routed]; auto; try congruence.
    + intros P i. exact (i_late0 (Hl P) i).
    + intros W. rewrite (i_wait0 (Hw W)).
      assert (L := i_late0). assert (Z : forall i, act s i = false).
      { apply i_late0. clear -W Hw. destruct (at_ s); cbn in *; auto; specialize (Hw W); discriminate. }
      destruct ns as [|j ns]; auto. exfalso. destruct (Hn j) as [Hn' _]. destruct (Hn' (or_introl eq_refl)) as (_ & _ & B & _).
      rewrite Z in B. discriminate.
    + rewrite i_sent0, Ee, map_app. cbn [map fst]. change (m :: r) with ([m] ++ r). perm.
    + rewrite deliveries_snoc, map_app, i_got0, !map_app. perm.
    + intros m' ns' Hr. apply in_app_or in Hr as [Hr|[Hr|[]]]; [exact (i_routed0 _ _ Hr)|]. injection Hr as <- <-.
      split; [apply sorted_nodup; auto|]. split.
      * intros j Hj0. apply Hn in Hj0. tauto.
      * intros j Hj0 Ej. unfold act at 1 2. cbn [active]. fold (act s j) (act s (from m)).
        destruct (act s j) eqn:Aj; auto. destruct (act s (from m)) eqn:Af; auto. left. apply Hn. auto.
Qed.
Lemma act_set s i j : i < length (active s) -> nth j (set (active s) i false) false = if j =? i then false else act s j.
Proof. intros Hi. unfold act. rewrite nth_set. apply Nat.ltb_lt in Hi. rewrite ?Hi. destruct (j =? i); auto. Qed.

Lemma main_inv s s' : inv s -> main s = Some s' -> inv s'.
Proof.
  intros I H. unfold main in H. destruct (at_ s) as [|i| | | | |todo|] eqn:Ea.
  - injection H as <-. destruct (existsb (fun b => b) (active s)) eqn:Ex; apply goto_inv; cbn; auto; try discriminate.
    + intros i Hi. apply in_seq in Hi. lia.
    + intros _ i. unfold act. destruct (nth_in_or_default i (active s) false) as [K|K]; auto.
      destruct (nth i (active s) false) eqn:E; auto. exfalso. assert (existsb (fun b => b) (active s) = true); [|congruence].
      apply existsb_exists. eauto.
    + intros i Hi. apply in_seq in Hi. lia.
  - assert (T : forall j, In j (seq 0 n) -> j < n) by (intros j Hj; apply in_seq in Hj; lia).
    destruct (nth_error (isl s) i) as [a|] eqn:Ei; [|injection H as <-; apply goto_inv; cbn; auto; discriminate].
    destruct (nth_error (active s) i) as [b|] eqn:Eb; [|injection H as <-; apply goto_inv; cbn; auto; discriminate].
    destruct (b && negb (is_running a)) eqn:B; [|injection H as <-; apply goto_inv; cbn; auto; discriminate].
    apply andb_true_iff in B as [-> B]. apply negb_true_iff in B.
    assert (Hi : i < length (isl s)) by (eapply nth_error_lt; eauto). assert (Hi' : i < length (active s)) by (eapply nth_error_lt; eauto).
    destruct (isolate (topo s) i) as [t| | |] eqn:Et; try discriminate. injection H as <-. destruct I.
    destruct (isolate_ok n (topo s) _ i i_graph0) as (t' & Et' & G); [lia|]. assert (t' = t) by congruence. subst t'.
    constructor; cbn [isl active topo emigrants downs at_ sent got routed]; auto; try discriminate.
    + rewrite set_length; auto.
    + destruct G as [G1 G2]. split; auto. intros x line Hx. destruct (G2 x line Hx) as [G3 G4]. split; auto.
      intros y v Hy. rewrite (G4 y v Hy). unfold act at 3 4. cbn [active]. rewrite !act_set by auto.
      destruct (Nat.eqb_spec x i), (Nat.eqb_spec y i); split; intros K; try tauto; destruct K as (K1 & K2 & K3); try discriminate; tauto.
    + intros j c Hj. unfold act. cbn [active]. rewrite act_set by auto. destruct (Nat.eqb_spec j i) as [->|]; eauto.
      intros _. rewrite Ei in Hj. injection Hj as <-. unfold is_running in B. destruct (doing a); congruence.
    + intros m ns Hr. destruct (i_routed0 m ns Hr) as (R1 & R2 & R3). split; auto. split; auto. intros j Hj Ej.
      unfold act. cbn [active]. rewrite !act_set by auto. destruct (j =? i), (from m =? i); auto.
  - eapply (send_inv s Test); eauto; rewrite ?Ea; cbn; auto; try discriminate. intros j Hj. apply in_seq in Hj. lia.
  - destruct (forallb has_exited (isl s)) eqn:Fx; [|discriminate]. injection H as <-. apply goto_inv; cbn; auto; try discriminate.
    + intros _. apply I. rewrite Ea. auto.
    + intros _ a Ha. rewrite forallb_forall in Fx. specialize (Fx a Ha). unfold has_exited in Fx. destruct (doing a); auto; discriminate.
    + intros j Hj. apply in_seq in Hj. lia.
  - destruct (downs s) eqn:Ed; [|discriminate]. injection H as <-. apply goto_inv; cbn; auto; try discriminate.
    + intros _. apply I. rewrite Ea. auto.
    + intros _. apply I. rewrite Ea. auto.
    + intros j Hj. apply in_seq in Hj. lia.
  - destruct (emigrants s) eqn:Ee.
    + injection H as <-. assert (L : length (isl s) = n) by apply I. apply goto_inv; cbn; auto; try discriminate.
      * intros _. apply I. rewrite Ea. auto.
      * intros _. apply I. rewrite Ea. auto.
      * intros _. apply I. rewrite Ea. auto.
      * intros i a Hi _. left. apply in_seq. assert (i < length (isl s)) by (eapply nth_error_lt; eauto). lia.
      * intros i Hi. apply in_seq in Hi. lia.
    + eapply (send_inv s Drain); eauto; rewrite ?Ea; cbn; auto. intros j Hj. apply in_seq in Hj. lia.
  - destruct todo; [|discriminate]. injection H as <-. apply goto_inv; cbn; auto; try (intros _; apply I; rewrite Ea; auto).
    + intros i a Hi _. right. destruct (i_last s I i a Hi) as [K|K]; rewrite ?Ea in *; cbn in *; auto. destruct K.
    + intros i [].
  - discriminate.
Qed.

Lemma ids_snoc s i ms : inv s -> map id (sent s ++ [Msg (length (sent s)) i ms]) = seq 0 (length (sent s ++ [Msg (length (sent s)) i ms])).
Proof. intros I. destruct I. rewrite map_app, i_ids0, app_length. cbn [map id length]. rewrite Nat.add_1_r, seq_S. auto. Qed.
Theorem step_inv l s s' : inv s -> step l s = Some s' -> inv s'.
Proof.
  intros I H. destruct l as [i p|i ms|i|i|i|i k|k| |i]; cbn [IslModel.step] in H.
  - destruct (nth_error (isl s) i) as [a|] eqn:Ei; [|discriminate]. cbn [obind] in H. destruct (is_running a) eqn:R; [|discriminate]. injection H as <-.
    assert (Da : doing a = Running) by (unfold is_running in R; destruct (doing a); auto; discriminate).
    eapply island_inv; eauto; cbn; try congruence. intros E. exfalso. exact (i_stop s I i a Ei E Da).
  - destruct (nth_error (isl s) i) as [a|] eqn:Ei; [|discriminate]. cbn [obind] in H. destruct (is_running a) eqn:R; [|discriminate]. injection H as <-.
    assert (Da : doing a = Running) by (unfold is_running in R; destruct (doing a); auto; discriminate).
    assert (Is := ids_snoc s i ms I). assert (Hi : i < length (isl s)) by (eapply nth_error_lt; eauto). destruct I.
    set (m := Msg (length (sent s)) i ms) in *. set (b := Island Running (ipop a) (inbox a) (outgoing a ++ [m])).
    constructor; cbn [isl active topo emigrants downs at_ sent got routed]; auto.
    + rewrite set_length; auto.
    + intros j c Hj. rewrite nth_error_set in Hj. destruct (_ && _)%bool eqn:B; [|eauto]. injection Hj as <-.
      apply andb_true_iff in B as [B _]. apply Nat.eqb_eq in B. subst j. intros E. exfalso. exact (i_stop0 i a Ei E Da).
    + intros c Hc. apply in_set in Hc as [->|Hc]; auto. cbn. discriminate.
    + intros J c Hc. apply in_set in Hc as [->|Hc]; auto. exfalso. assert (doing a = Exited) by (apply i_join0; auto; eapply nth_error_In; eauto). congruence.
    + intros j c Hj D. rewrite nth_error_set in Hj. destruct (_ && _)%bool eqn:B; [|eauto]. injection Hj as <-.
      apply andb_true_iff in B as [B _]. apply Nat.eqb_eq in B. subst j. cbn. eauto.
    + destruct (outs_at _ i a i_isl0 Ei) as (r & P & Q). rewrite (Q b), i_sent0, P. cbn [outgoing b]. perm.
    + rewrite i_got0. apply Permutation_app_tail, Permutation_map, Permutation_app_head, Permutation_sym, set_boxes with a; auto.
    + intros m' Hm. apply in_app_or in Hm as [Hm|[<-|[]]]; auto. cbn. lia.
  - destruct (nth_error (isl s) i) as [a|] eqn:Ei; [|discriminate]. cbn [obind] in H. destruct (is_running a) eqn:R; [|discriminate]. injection H as <-.
    apply receive_inv; auto. intros E. eapply i_stop; eauto.
  - destruct (nth_error (isl s) i) as [a|] eqn:Ei; [|discriminate]. cbn [obind] in H. destruct (is_running a) eqn:R; [|discriminate]. injection H as <-.
    assert (Da : doing a = Running) by (unfold is_running in R; destruct (doing a); auto; discriminate).
    eapply island_inv; eauto; cbn; congruence.
  - destruct (nth_error (isl s) i) as [a|] eqn:Ei; [|discriminate]. cbn [obind] in H. destruct (doing a) eqn:Da; try discriminate. destruct (outgoing a) eqn:Oa; [|discriminate].
    injection H as <-. eapply island_inv; eauto; cbn; congruence.
  - destruct (nth_error (isl s) i) as [a|] eqn:Ei; [|discriminate]. cbn [obind] in H.
    destruct (nth_error (outgoing a) k) as [m|] eqn:Em; [|discriminate]. cbn [obind] in H. injection H as <-.
    assert (Hi : i < length (isl s)) by (eapply nth_error_lt; eauto). assert (Tp := take_perm _ _ _ Em).
    assert (Ne : doing a <> Exited). { intros E. rewrite (i_exit s I a) in Em; auto; [destruct k; discriminate|eapply nth_error_In; eauto]. }
    assert (Nj : joined (at_ s) = false). { destruct (joined (at_ s)) eqn:J; auto. exfalso. apply Ne. eapply (i_join s I J). eapply nth_error_In; eauto. }
    destruct I. set (b := Island (doing a) (ipop a) (inbox a) (take (outgoing a) k)).
    constructor; cbn [isl active topo emigrants downs at_ sent got routed]; auto.
    + rewrite set_length; auto.
    + intros j c Hj. rewrite nth_error_set in Hj. destruct (_ && _)%bool eqn:B; [|eauto]. injection Hj as <-.
      apply andb_true_iff in B as [B _]. apply Nat.eqb_eq in B. subst j. cbn. eauto.
    + intros c Hc. apply in_set in Hc as [->|Hc]; auto. cbn. congruence.
    + congruence.
    + intros D. destruct (at_ s); cbn in *; congruence.
    + intros j c Hj D. exfalso. destruct (at_ s); cbn in *; congruence.
    + destruct (outs_at _ i a i_isl0 Ei) as (r & P & Q). rewrite (Q b). etransitivity; [exact i_sent0|]. etransitivity; [apply Permutation_app_tail; etransitivity; [exact P|apply Permutation_app_tail, Tp]|].
      cbn [outgoing b]. generalize (take (outgoing a) k). intros u. change (m :: u) with ([m] ++ u). perm.
    + rewrite i_got0. apply Permutation_app_tail, Permutation_map, Permutation_app_head, Permutation_sym, set_boxes with a; auto.
  - destruct (nth_error (downs s) k) as [[j m]|] eqn:Ed; [|discriminate]. cbn [obind fst snd] in H.
    destruct (nth_error (isl s) j) as [a|] eqn:Ei; [|discriminate]. cbn [obind] in H. injection H as <-.
    assert (Hi : j < length (isl s)) by (eapply nth_error_lt; eauto). assert (Tp := take_perm _ _ _ Ed).
    assert (Nw : waited (at_ s) = false). { destruct (waited (at_ s)) eqn:J; auto. rewrite (i_wait s I J) in Ed. destruct k; discriminate. }
    destruct I. set (b := Island (doing a) (ipop a) (inbox a ++ [m]) (outgoing a)).
    constructor; cbn [isl active topo emigrants downs at_ sent got routed]; auto.
    + rewrite set_length; auto.
    + intros i c Hj. rewrite nth_error_set in Hj. destruct (_ && _)%bool eqn:B; [|eauto]. injection Hj as <-.
      apply andb_true_iff in B as [B _]. apply Nat.eqb_eq in B. subst i. cbn. eauto.
    + intros c Hc. apply in_set in Hc as [->|Hc]; auto. cbn. apply (i_exit0 a). eapply nth_error_In; eauto.
    + intros J c Hc. apply in_set in Hc as [->|Hc]; auto. cbn. apply i_join0; auto. eapply nth_error_In; eauto.
    + congruence.
    + intros i c Hj D. exfalso. destruct (at_ s); cbn in *; congruence.
    + rewrite (set_outs _ _ a b i_isl0 Ei) by reflexivity. auto.
    + destruct (boxes_at _ j a i_isl0 Ei) as (r & P & Q). etransitivity; [exact i_got0|]. apply Permutation_app_tail, Permutation_map.
      etransitivity; [apply Permutation_app_tail, Tp|]. rewrite (Q b), P. cbn [inbox b]. rewrite map_app. cbn [map].
      generalize (take (downs s) k) (map (pair j) (inbox a)). intros u v. change ((j, m) :: u) with ([(j, m)] ++ u). perm.
  - eapply main_inv; eauto.
  - destruct (at_ s) as [| | | | | |todo|] eqn:Ea; try discriminate. destruct (existsb (Nat.eqb i) todo) eqn:Ex; [|discriminate].
    destruct (nth_error (isl s) i) as [a|] eqn:Ei; [|discriminate]. cbn [obind] in H. injection H as <-.
    assert (Hi : i < length (isl s)) by (eapply nth_error_lt; eauto).
    assert (Ir : inv (receive integrate evaluate s i a)). { apply receive_inv; auto. intros E. eapply i_stop; eauto. }
    apply goto_inv; auto; cbn [to_do drained waited joined late].
    + intros _ j. apply (i_late _ Ir). cbn. rewrite Ea. auto.
    + intros _. apply (i_join _ Ir). cbn. rewrite Ea. auto.
    + intros _. apply (i_wait _ Ir). cbn. rewrite Ea. auto.
    + intros _. apply (i_drain _ Ir). cbn. rewrite Ea. auto.
    + intros j c Hj _. cbn [isl receive] in Hj. rewrite nth_error_set in Hj. destruct (_ && _)%bool eqn:B.
      * injection Hj as <-. auto.
      * assert (B' : (j =? i) = false) by (apply Nat.ltb_lt in Hi; rewrite Hi, andb_true_r in B; exact B).
        destruct (i_last s I j c Hj) as [K|K]; rewrite ?Ea in *; cbn in *; auto. left. apply filter_In. split; auto.
        rewrite B'. auto.
    + intros j Hj. apply filter_In in Hj as [Hj _]. apply (i_todo s I). rewrite Ea. auto.
Qed.
Theorem run_inv ls : forall s s', inv s -> run integrate evaluate ls s = Some s' -> inv s'.
Proof.
  induction ls as [|l ls IH]; intros s s' I H; cbn [run] in H; [injection H as <-; auto|].
  destruct (step l s) as [s1|] eqn:E; [|discriminate]. cbn [obind] in H. eapply IH; [|exact H]. eapply step_inv; eauto.
Qed.
Lemma start_act (pops : list Pop) i : i < length pops -> nth i (map (fun _ : Pop => true) pops) false = true.
Proof. revert i. induction pops as [|p pops IH]; intros [|i] H; cbn in *; try lia; auto. apply IH. lia. Qed.
Lemma start_isl (pops : list Pop) i (a : island) : nth_error (map (fun p => Island Running p [] []) pops) i = Some a -> doing a = Running /\ inbox a = [] /\ outgoing a = [].
Proof. revert i. induction pops as [|p pops IH]; intros [|i] H; cbn in *; try discriminate; [injection H as <-; auto|eauto]. Qed.
Lemma flat_nil {S T} (f : S -> list T) l : (forall x, In x l -> f x = []) -> flat_map f l = [].
Proof. induction l as [|x l IH]; intros H; cbn; auto. rewrite H by (left; auto). apply IH. intros; apply H; right; auto. Qed.
Lemma start_inv pops t : length pops = n -> is_graph n t edge -> inv (start pops t).
Proof.
  intros L G. constructor; cbn [start isl active topo emigrants downs at_ sent got routed late joined waited drained to_do]; auto; try discriminate.
  - rewrite map_length; auto.
  - rewrite map_length; auto.
  - destruct G as [G1 G2]. split; auto. intros x line Hx. destruct (G2 x line Hx) as [G3 G4]. split; auto. intros y v Hy. rewrite (G4 y v Hy).
    unfold act, start. cbn [active]. assert (x < n) by (rewrite <- G1; eapply nth_error_lt; eauto). assert (y < n) by (rewrite <- G3; eapply nth_error_lt; eauto).
    rewrite !start_act by lia. tauto.
  - intros i a Hi. assert (K0 := nth_error_lt _ _ _ Hi). rewrite map_length in K0. apply start_isl in Hi as (Hi & _). unfold act, start. cbn [active]. rewrite Hi. intros E.
    rewrite start_act in E by auto; discriminate.
  - intros a Ha. apply In_nth_error in Ha as (i & Ha). apply start_isl in Ha. intros; tauto.
  - intros i Hi. apply in_seq in Hi. lia.
  - rewrite flat_nil; auto. intros i _. unfold out_at. destruct (nth_error _ i) eqn:E; auto. apply start_isl in E. tauto.
  - rewrite (flat_nil (box_at _)); auto. intros i _. unfold box_at. destruct (nth_error _ i) eqn:E; auto. apply start_isl in E as (_ & E & _). rewrite E. auto.
  - intros m [].
  - intros m ns [].
Qed.
End Proofs.
