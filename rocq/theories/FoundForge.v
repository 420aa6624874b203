(** Proofs about the forges and the restarts (C116, C117). *)
From Coq Require Import List Arith Bool Lia.
From Verif Require Import Lib Outcome BreedModel AlgoSpec FoundSpec FoundModel.
From Coq Require Import List.
Import ListNotations.

Section Forge.
Context {T : Type}.
Notation vector := (vector T).
Implicit Types (v : vector) (rs : list (request T)).
Definition holds v i p : Prop := exists t, nth_error (forges v) i = Some (Forge t (Some p)).
Definition lives (h : list (object T)) p : Prop := exists t, nth_error h p = Some (Object true t).
Definition inv v : Prop :=
  (forall i p, holds v i p -> lives (heap v) p) /\
  (forall i j p, holds v i p -> holds v j p -> i = j) /\
  (forall p, lives (heap v) p -> exists i, holds v i p).

Lemma holds_lt v i p : holds v i p -> i < length (forges v).
Proof. intros (t & H). eapply nth_error_lt; eauto. Qed.
Lemma lives_lt h p : lives h p -> p < length h.
Proof. intros (t & H). eapply nth_error_lt; eauto. Qed.
Lemma delete_length (h : list (object T)) q : length (delete h q) = length h.
Proof. destruct q as [i|]; cbn; [|reflexivity]. destruct (nth_error h i); [apply set_length|reflexivity]. Qed.
Lemma delete_other (h : list (object T)) q p : q <> Some p -> nth_error (delete h q) p = nth_error h p.
Proof.
  intros H. destruct q as [i|]; cbn; [|reflexivity]. destruct (nth_error h i) as [o|] eqn:E; [|reflexivity].
  rewrite nth_error_set_neq; [reflexivity|]. congruence.
Qed.
Lemma delete_dead (h : list (object T)) p : ~ lives (delete h (Some p)) p.
Proof.
  intros (t & H). cbn in H. destruct (nth_error h p) as [o|] eqn:E; [|congruence].
  rewrite nth_error_set_eq in H by (eapply nth_error_lt; eauto). discriminate.
Qed.
Lemma delete_lives (h : list (object T)) q p : lives (delete h q) p <-> lives h p /\ q <> Some p.
Proof.
  split.
  - intros H. assert (q <> Some p) by (intros ->; exact (delete_dead _ _ H)). split; [|assumption].
    destruct H as (t & H). rewrite delete_other in H by assumption. exists t. exact H.
  - intros [(t & H) N]. exists t. rewrite delete_other by assumption. exact H.
Qed.
Lemma holds_set v h i f j p b : i < length (forges v) -> holds (Vector b (set (forges v) i f) h) j p <-> (j = i /\ inst f = Some p) \/ (j <> i /\ holds v j p).
Proof.
  intros Hi. unfold holds. cbn [forges]. destruct (Nat.eq_dec j i) as [->|N].
  - rewrite nth_error_set_eq by exact Hi. split.
    + intros (t & H). injection H as ->. left. auto.
    + intros [[_ H]|[C _]]; [|congruence]. exists (initial f). destruct f as [t q]. cbn in *. congruence.
  - rewrite nth_error_set_neq by congruence. split; [right; auto|]. intros [[C _]|[_ H]]; [congruence|exact H].
Qed.
Lemma lives_snoc h p t : lives (h ++ [Object true t]) p <-> lives h p \/ p = length h.
Proof.
  unfold lives. split.
  - intros (t' & H). destruct (Nat.lt_ge_cases p (length h)) as [L|L].
    + rewrite nth_error_app1 in H by exact L. eauto.
    + right. apply nth_error_lt in H. rewrite app_length in H. cbn in H. lia.
  - intros [(t' & H)| ->].
    + exists t'. rewrite nth_error_app1 by (eapply nth_error_lt; eauto). exact H.
    + exists t. rewrite nth_error_app2, Nat.sub_diag by lia. reflexivity.
Qed.
(** what instantiate does *)
Lemma instantiate_cases v i v' p : instantiate v i = Ok (v', p) ->
  exists f, nth_error (forges v) i = Some f /\
  ((no_cache v = false /\ inst f = Some p /\ v' = v) \/
   ((no_cache v = true \/ inst f = None) /\ p = length (heap v) /\
    v' = Vector (no_cache v) (set (forges v) i (Forge (initial f) (Some p))) (delete (heap v) (inst f) ++ [Object true (initial f)]))).
Proof.
  unfold instantiate. intros H. destruct (nth_error (forges v) i) as [f|] eqn:E; [|discriminate]. exists f. split; [reflexivity|].
  destruct (no_cache v); [injection H as <- <-; right; auto|]. destruct (inst f) as [q|] eqn:Eq; injection H as <- <-; [left; auto|right; auto].
Qed.
Lemma instantiate_inv v i v' p : inv v -> instantiate v i = Ok (v', p) -> inv v' /\ holds v' i p.
Proof.
  intros (I1 & I2 & I3) H. apply instantiate_cases in H as (f & Hf & [(_ & Hp & ->)|(_ & -> & ->)]).
  - split; [split; auto|]. exists (initial f). destruct f as [t q]. cbn in *. congruence.
  - assert (Hi : i < length (forges v)) by (eapply nth_error_lt; eauto).
    assert (Hq : forall q, inst f = Some q -> holds v i q) by (intros q E; exists (initial f); destruct f as [t u]; cbn in *; congruence).
    split; [|apply holds_set; auto; left; auto].
    split; [|split].
    + intros j p H. apply holds_set in H; [|exact Hi]. cbn [inst heap] in *. apply lives_snoc. rewrite delete_length.
      destruct H as [[-> H]|[N H]]; [right; congruence|]. left. apply delete_lives. split; [eauto|].
      intros E. apply N. apply (I2 j i p H). auto.
    + intros j k p H1 H2. apply holds_set in H1; [|exact Hi]. apply holds_set in H2; [|exact Hi]. cbn [inst] in *.
      destruct H1 as [[-> H1]|[N1 H1]]; destruct H2 as [[-> H2]|[N2 H2]]; auto.
      * injection H1 as <-. apply I1, lives_lt in H2. lia.
      * injection H2 as <-. apply I1, lives_lt in H1. lia.
      * eapply I2; eauto.
    + intros p H. cbn [heap] in H. apply lives_snoc in H. rewrite delete_length in H. destruct H as [H| ->].
      * apply delete_lives in H as [H N]. apply I3 in H as (j & H). exists j. apply holds_set; [exact Hi|]. right. split; [|exact H].
        intros ->. destruct H as (t & H). rewrite Hf in H. injection H as ->. apply N. reflexivity.
      * exists i. apply holds_set; [exact Hi|]. left. auto.
Qed.
Lemma add_holds v t i p : holds (add v t) i p <-> holds v i p.
Proof.
  unfold holds, add. cbn [forges]. split; intros (u & H).
  - destruct (Nat.lt_ge_cases i (length (forges v))) as [L|L].
    + rewrite nth_error_app1 in H by exact L. eauto.
    + rewrite nth_error_app2 in H by exact L. destruct (i - length (forges v)) as [|k]; [discriminate|]. cbn in H. destruct k; discriminate.
  - exists u. rewrite nth_error_app1 by (eapply nth_error_lt; eauto). exact H.
Qed.
Lemma call_inv v r v' : inv v -> do_call v r = Ok v' -> inv v'.
Proof.
  intros (I1 & I2 & I3) H. destruct r as [t|i t|i|p step]; cbn [do_call] in H.
  - injection H as <-. split; [|split].
    + intros i p H. exact (I1 _ _ (proj1 (add_holds v t i p) H)).
    + intros i j p H1 H2. exact (I2 _ _ _ (proj1 (add_holds v t i p) H1) (proj1 (add_holds v t j p) H2)).
    + intros p H. destruct (I3 p H) as (i & Hi). exists i. apply add_holds. exact Hi.
  - unfold setup_at in H. destruct (nth_error (forges v) i) as [f|] eqn:Hf; [|discriminate]. injection H as <-.
    assert (Hi : i < length (forges v)) by (eapply nth_error_lt; eauto).
    assert (Hq : forall q, inst f = Some q -> holds v i q) by (intros q E; exists (initial f); destruct f as [t' u]; cbn in *; congruence).
    split; [|split].
    + intros j p H. apply holds_set in H; [|exact Hi]. destruct H as [[_ H]|[N H]]; [discriminate|]. cbn [heap]. apply delete_lives.
      split; [eauto|]. intros E. apply N. apply (I2 j i p H). auto.
    + intros j k p H1 H2. apply holds_set in H1; [|exact Hi]. apply holds_set in H2; [|exact Hi]. cbn [inst] in *.
      destruct H1 as [[_ H1]|[N1 H1]]; [discriminate|]. destruct H2 as [[_ H2]|[N2 H2]]; [discriminate|]. eapply I2; eauto.
    + intros p H. cbn [heap] in H. apply delete_lives in H as [H N]. apply I3 in H as (j & H). exists j. apply holds_set; [exact Hi|]. right.
      split; [|exact H]. intros ->. destruct H as (t' & H). rewrite Hf in H. injection H as ->. apply N. reflexivity.
  - apply rbind_ok in H as ([v1 q] & H1 & H). injection H as <-. apply (instantiate_inv v i v1 q); auto. split; auto.
  - unfold use in H. destruct (nth_error (heap v) p) as [o|] eqn:Ho; [|discriminate]. destruct (alive o) eqn:Ea; [|discriminate]. injection H as <-.
    assert (Hp : p < length (heap v)) by (eapply nth_error_lt; eauto).
    assert (K : forall q, lives (set (heap v) p (Object true (step (content o)))) q <-> lives (heap v) q).
    { intros q. unfold lives. destruct (Nat.eq_dec q p) as [->|N].
      - rewrite nth_error_set_eq by exact Hp. split; intros _; [exists (content o); rewrite Ho; destruct o; cbn in *; congruence|eauto].
      - rewrite nth_error_set_neq by congruence. tauto. }
    split; [|split]; unfold holds; cbn [heap forges].
    + intros i q H. apply K. exact (I1 _ _ H).
    + exact I2.
    + intros q H. apply K in H. exact (I3 _ H).
Qed.
Lemma calls_inv rs : forall v v', inv v -> do_calls v rs = Ok v' -> inv v'.
Proof.
  induction rs as [|r rs IH]; intros v v' I H; cbn [do_calls] in H; [injection H as <-; exact I|].
  apply rbind_ok in H as (v1 & H1 & H). apply (IH v1 v'); [exact (call_inv _ _ _ I H1)|exact H].
Qed.
Lemma call_cache v r v' : do_call v r = Ok v' -> no_cache v' = no_cache v.
Proof.
  destruct r as [t|i t|i|p step]; cbn [do_call]; intros H.
  - injection H as <-. reflexivity.
  - unfold setup_at in H. destruct (nth_error (forges v) i); [|discriminate]. injection H as <-. reflexivity.
  - apply rbind_ok in H as ([v1 q] & H1 & H). injection H as <-. apply instantiate_cases in H1 as (f & _ & [(_ & _ & ->)|(_ & _ & ->)]); reflexivity.
  - unfold use in H. destruct (nth_error (heap v) p) as [o|]; [|discriminate]. destruct (alive o); [|discriminate]. injection H as <-. reflexivity.
Qed.
Lemma calls_cache rs : forall v v', do_calls v rs = Ok v' -> no_cache v' = no_cache v.
Proof.
  induction rs as [|r rs IH]; intros v v' H; cbn [do_calls] in H; [injection H as <-; reflexivity|].
  apply rbind_ok in H as (v1 & H1 & H). rewrite (IH _ _ H). eapply call_cache; eauto.
Qed.
Lemma set_map {A B} (g : A -> B) l i x : map g (set l i x) = set (map g l) i (g x).
Proof. revert i. induction l as [|a l IH]; intros [|i]; cbn; auto. f_equal. apply IH. Qed.
Lemma set_id {A} (l : list A) i x : nth_error l i = Some x -> set l i x = l.
Proof. revert i. induction l as [|a l IH]; intros [|i] H; cbn in *; try discriminate; [congruence|]. f_equal. auto. Qed.
Lemma calls_configured rs : forall v v', do_calls v rs = Ok v' -> map initial (forges v') = configured (map initial (forges v)) rs.
Proof.
  induction rs as [|r rs IH]; intros v v' H; cbn [do_calls] in H; [injection H as <-; reflexivity|].
  apply rbind_ok in H as (v1 & H1 & H). rewrite (IH _ _ H). destruct r as [t|i t|i|p step]; cbn [do_call configured] in *.
  - injection H1 as <-. cbn. rewrite map_app. reflexivity.
  - unfold setup_at in H1. destruct (nth_error (forges v) i); [|discriminate]. injection H1 as <-. cbn [forges]. rewrite set_map. reflexivity.
  - apply rbind_ok in H1 as ([v2 q] & H2 & H1). injection H1 as <-. apply instantiate_cases in H2 as (f & Hf & [(_ & _ & ->)|(_ & _ & ->)]); [reflexivity|].
    cbn [forges]. rewrite set_map. cbn [initial]. rewrite set_id; [reflexivity|]. rewrite nth_error_map', Hf. reflexivity.
  - unfold use in H1. destruct (nth_error (heap v) p) as [o|]; [|discriminate]. destruct (alive o); [|discriminate]. injection H1 as <-. reflexivity.
Qed.
(** a request that neither renews forge [i] leaves it its object; if it does not use it either, the object is unchanged *)
Lemma call_frame v r v' i p : inv v -> holds v i p -> do_call v r = Ok v' -> ~ renews i (no_cache v) r ->
  holds v' i p /\ (~ uses p r -> nth_error (heap v') p = nth_error (heap v) p).
Proof.
  intros (I1 & I2 & I3) Hh H Hr. assert (Hp := lives_lt _ _ (I1 _ _ Hh)). destruct r as [t|j t|j|q step]; cbn [do_call renews uses] in *.
  - injection H as <-. split; [apply add_holds; exact Hh|reflexivity].
  - unfold setup_at in H. destruct (nth_error (forges v) j) as [f|] eqn:Hf; [|discriminate]. injection H as <-.
    assert (Hj : j < length (forges v)) by (eapply nth_error_lt; eauto). split.
    + apply holds_set; [exact Hj|]. right. auto.
    + intros _. cbn [heap]. apply delete_other. intros E. apply Hr. apply (I2 j i p); [|exact Hh]. exists (initial f). destruct f; cbn in *; congruence.
  - apply rbind_ok in H as ([v1 q] & H1 & H). injection H as <-. apply instantiate_cases in H1 as (f & Hf & [(_ & _ & ->)|(Hn & -> & ->)]); [auto|].
    assert (Hj : j < length (forges v)) by (eapply nth_error_lt; eauto).
    assert (N : i <> j).
    { intros ->. destruct Hh as (t & Hh). rewrite Hf in Hh. injection Hh as ->. cbn in Hn. destruct Hn as [Hn|Hn]; [auto|discriminate]. }
    split.
    + apply holds_set; [exact Hj|]. right. auto.
    + intros _. cbn [heap]. rewrite nth_error_app1 by (rewrite delete_length; exact Hp). apply delete_other.
      intros E. apply N. apply (I2 i j p); [exact Hh|]. exists (initial f). destruct f; cbn in *; congruence.
  - unfold use in H. destruct (nth_error (heap v) q) as [o|] eqn:Ho; [|discriminate]. destruct (alive o); [|discriminate]. injection H as <-.
    split; [exact Hh|]. intros N. cbn [heap]. apply nth_error_set_neq. congruence.
Qed.
Lemma calls_frame i p rs : forall v v', inv v -> holds v i p -> do_calls v rs = Ok v' -> (forall r, In r rs -> ~ renews i (no_cache v) r) ->
  holds v' i p /\ ((forall r, In r rs -> ~ uses p r) -> nth_error (heap v') p = nth_error (heap v) p).
Proof.
  induction rs as [|r rs IH]; intros v v' I Hh H Hr; cbn [do_calls] in H; [injection H as <-; auto|].
  apply rbind_ok in H as (v1 & H1 & H). destruct (call_frame _ _ _ _ _ I Hh H1 (Hr r (or_introl eq_refl))) as [Hh1 Hu1].
  destruct (IH v1 v') as [Hh2 Hu2]; auto.
  - exact (call_inv _ _ _ I H1).
  - intros r' Hr'. rewrite (call_cache _ _ _ H1). apply Hr. right. exact Hr'.
  - split; [exact Hh2|]. intros Hu. rewrite Hu2 by (intros r' Hr'; apply Hu; right; exact Hr'). apply Hu1, Hu. left. reflexivity.
Qed.
Lemma destroy_dead v : inv v -> forall p, ~ lives (destroy v) p.
Proof.
  intros (I1 & I2 & I3) p H. unfold destroy in H.
  assert (K : forall (fs : list (forge T)) (h : list (object T)), lives (fold_left (fun h f => delete h (inst f)) fs h) p -> lives h p /\ forall f, In f fs -> inst f <> Some p).
  { induction fs as [|f fs IH]; intros h Hl; cbn in Hl; [split; [exact Hl|intros f []]|].
    apply IH in Hl as [Hl Hf]. apply delete_lives in Hl as [Hl N]. split; [exact Hl|]. intros g [<-|Hg]; auto. }
  apply K in H as [H Hf]. apply I3 in H as (i & t & H). apply nth_error_In in H. exact (Hf _ H eq_refl).
Qed.
(** forge [i] has no object *)
Definition idle v i : Prop := forall p, ~ holds v i p.
Lemma call_idle v r v' i : idle v i -> r <> Instantiate i -> do_call v r = Ok v' -> idle v' i.
Proof.
  intros Hd Hn H p Hp. destruct r as [t|j t|j|q step]; cbn [do_call] in H.
  - injection H as <-. exact (Hd _ (proj1 (add_holds _ _ _ _) Hp)).
  - unfold setup_at in H. destruct (nth_error (forges v) j) as [f|] eqn:Hf; [|discriminate]. injection H as <-.
    apply holds_set in Hp; [|eapply nth_error_lt; eauto]. destruct Hp as [[_ Hp]|[_ Hp]]; [discriminate|exact (Hd _ Hp)].
  - apply rbind_ok in H as ([v1 q] & H1 & H). injection H as <-. apply instantiate_cases in H1 as (f & Hf & [(_ & _ & ->)|(_ & -> & ->)]); [exact (Hd _ Hp)|].
    apply holds_set in Hp; [|eapply nth_error_lt; eauto]. destruct Hp as [[-> _]|[_ Hp]]; [congruence|exact (Hd _ Hp)].
  - unfold use in H. destruct (nth_error (heap v) q) as [o|]; [|discriminate]. destruct (alive o); [|discriminate]. injection H as <-. exact (Hd _ Hp).
Qed.
Lemma calls_idle i rs : forall v v', idle v i -> ~ In (Instantiate i) rs -> do_calls v rs = Ok v' -> idle v' i.
Proof.
  induction rs as [|r rs IH]; intros v v' Hd Hn H; cbn [do_calls] in H; [injection H as <-; exact Hd|].
  apply rbind_ok in H as (v1 & H1 & H). apply (IH v1 v'); [|intros C; apply Hn; right; exact C|exact H].
  eapply call_idle; eauto. intros ->. apply Hn. left. reflexivity.
Qed.
Lemma calls_app rs1 rs2 : forall v v', do_calls v (rs1 ++ rs2) = Ok v' -> exists v1, do_calls v rs1 = Ok v1 /\ do_calls v1 rs2 = Ok v'.
Proof.
  induction rs1 as [|r rs1 IH]; intros v v' H; cbn [app do_calls] in *; [eauto|].
  apply rbind_ok in H as (v1 & H1 & H). destruct (IH _ _ H) as (v2 & H2 & H3). exists v2. rewrite H1. cbn [rbind]. auto.
Qed.
Lemma setup_idle v i t v' : do_call v (Setup i t) = Ok v' -> idle v' i.
Proof.
  intros H p Hp. cbn [do_call] in H. unfold setup_at in H. destruct (nth_error (forges v) i) as [f|] eqn:Hf; [|discriminate]. injection H as <-.
  apply holds_set in Hp; [|eapply nth_error_lt; eauto]. destruct Hp as [[_ Hp]|[C _]]; [discriminate|congruence].
Qed.
Lemma empty_inv b : inv (Vector b [] []).
Proof.
  split; [|split].
  - intros i p (t & H). destruct i; discriminate.
  - intros i j p (t & H). destruct i; discriminate.
  - intros p (t & H). destruct p; discriminate.
Qed.
End Forge.

(** ** restarts *)
Section Restart.
Context {G F W : Type}.
Notation I := (indiv G F).
Variable value : G -> F.
Variable init : W -> res (I * W).
Variable peval : list I -> W -> res (list I * W).
Variable algo : list I -> W -> res (list I * W).
Variable cont : list I -> W -> res (bool * W).
Definition made_by_init (g : G) : Prop := exists w x w', init w = Ok (x, w') /\ geno x = g.
Definition fresh_pop (n : nat) (p : list I) : Prop := length p = n /\ Forall (fun x => evaluated value x /\ made_by_init (geno x)) p.
Hypothesis Hi : forall w x w', init w = Ok (x, w') -> right value x.
Hypothesis He : forall l w l' w', peval l w = Ok (l', w') -> l' = all_evaluated value l.
Lemma fill_ok n : forall w l w', fill init n w = Ok (l, w') -> length l = n /\ Forall (fun x => right value x /\ made_by_init (geno x)) l.
Proof.
  induction n as [|n IH]; intros w l w' H; cbn [fill] in H; [injection H as <- <-; auto|].
  apply rbind_ok in H as ([x w1] & H1 & H). apply rbind_ok in H as ([r w2] & H2 & H). injection H as <- <-.
  destruct (IH _ _ _ H2) as [L R]. split; [cbn; lia|]. constructor; [|exact R]. split; [eauto|]. exists w, x, w1. auto.
Qed.
Lemma reset_ok size pop w p w' : pop_reset init peval size pop w = Ok (p, w') -> fresh_pop (match size with Some n => n | None => length pop end) p.
Proof.
  intros H. unfold pop_reset in H. apply rbind_ok in H as ([l w1] & H1 & H). apply fill_ok in H1 as [L R]. apply He in H. subst p. split.
  - unfold all_evaluated. rewrite map_length. exact L.
  - unfold all_evaluated. rewrite Forall_map. eapply Forall_impl; [|exact R]. intros x [[E|E] M]; unfold evaluated in *; rewrite E; cbn; auto.
Qed.
(** each run starts from a fresh population and its outcome is the next to be reset *)
Fixpoint restarts (size : option nat) (pop : list I) (tr : list (list I * list I)) : Prop :=
  match tr with
  | [] => True
  | (p0, p1) :: tr => fresh_pop (match size with Some n => n | None => length pop end) p0 /\ (exists w w', algo p0 w = Ok (p1, w')) /\ restarts size p1 tr
  end.
Lemma restart_ok fuel size : forall pop w p tr w', restart init peval algo cont fuel size pop w = Ok (p, tr, w') ->
  tr <> [] /\ restarts size pop tr /\ p = last (map snd tr) pop /\ stops_at_first_no cont (map snd tr).
Proof.
  induction fuel as [|f IH]; intros pop w p tr w' H; cbn [restart] in H; [discriminate|].
  apply rbind_ok in H as ([p0 w1] & H1 & H). apply rbind_ok in H as ([p1 w2] & H2 & H). apply rbind_ok in H as ([b w3] & H3 & H).
  apply reset_ok in H1. destruct b.
  - apply rbind_ok in H as ([[q tr1] w4] & H4 & H). injection H as <- <- <-. destruct (IH _ _ _ _ _ H4) as (N & R & -> & St).
    split; [discriminate|]. split; [split; [exact H1|split; [eauto|exact R]]|]. split.
    + destruct tr1 as [|a tr1]; [congruence|]. cbn [map last snd]. destruct tr1; [reflexivity|]. cbn [map].
      clear. revert p. induction tr1 as [|c l IH]; intros p; [reflexivity|]. cbn [map last]. apply IH.
    + intros i q Hq. destruct i as [|i]; cbn in Hq.
      * injection Hq as ->. exists w2, w3. cbn [map length]. rewrite map_length. destruct tr1; [congruence|]. cbn. exact H3.
      * destruct (St i q Hq) as (u & u' & E). exists u, u'. cbn [map length] in *. exact E.
  - injection H as <- <- <-. split; [discriminate|]. split; [split; [exact H1|split; [eauto|exact Logic.I]]|]. split; [reflexivity|].
    intros [|i] q Hq; cbn in Hq; [|destruct i; discriminate]. injection Hq as ->. exists w2, w3. exact H3.
Qed.
End Restart.
