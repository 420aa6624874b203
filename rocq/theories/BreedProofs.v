From Coq Require Import List Arith Lia Bool QArith.
From Verif Require Import Lib Outcome PopModel BreedModel BreedSpec.
Import ListNotations.
Close Scope Q_scope.
Open Scope nat_scope.

Section Breed.
Context {G F W : Type}.
Notation I := (indiv G F).
Notation genop := (@genop G F W).
Notation populator := (@populator G F).

Lemma genop_ind' (P : genop -> Prop)
  (Hm : forall f, P (MonGen f)) (Hb : forall f, P (BinGen f)) (Hs : forall f s, P (SelBinGen f s))
  (Hq : forall f, P (QuadGen f))
  (Hseq : forall l, Forall (fun ro => P (snd ro)) l -> P (Sequential l))
  (Hpro : forall l, Forall (fun ro => P (snd ro)) l -> P (Proportional l)) : forall op, P op.
Proof.
  fix rec 1. intros [f|f|f s|f|l|l].
  - apply Hm. - apply Hb. - apply Hs. - apply Hq.
  - apply Hseq. induction l as [|[r o] l IH]; constructor; [apply rec|exact IH].
  - apply Hpro. induction l as [|[r o] l IH]; constructor; [apply rec|exact IH].
Qed.

Lemma honest_seq l : honest (Sequential l : genop) <-> Forall (fun ro => honest (snd ro)) l.
Proof.
  cbn [honest]. induction l as [|[r o] l IH].
  - split; auto.
  - split; [intros [H1 H2]; constructor; [auto|apply IH; auto]|intros H; inversion H; subst; split; [auto|apply IH; auto]].
Qed.
Lemma honest_prop l : honest (Proportional l : genop) <-> Forall (fun ro => honest (snd ro)) l.
Proof. exact (honest_seq l). Qed.
Lemma total_seq l : total_op (Sequential l : genop) <-> Forall (fun ro => total_op (snd ro)) l.
Proof.
  cbn [total_op]. induction l as [|[r o] l IH].
  - split; auto.
  - split; [intros [H1 H2]; constructor; [auto|apply IH; auto]|intros H; inversion H; subst; split; [auto|apply IH; auto]].
Qed.
Lemma total_prop l : total_op (Proportional l : genop) <-> l <> [] /\ Forall (fun ro => total_op (snd ro)) l.
Proof.
  cbn [total_op]. assert (H := total_seq l). cbn [total_op] in H. rewrite <- H. reflexivity.
Qed.

Section Ops.
Variable source : list I.
Variable select : W -> res (I * W).
Variable flip : Q -> W -> res (bool * W).
Variable wheel : list Q -> W -> res (nat * W).
Hypothesis Hsel : selects_from source select.

Notation apply := (apply source select flip wheel).
Notation seq_loop := (seq_loop flip).
Notation deref := (deref select).

Fixpoint seq_all (pos : nat) (l : list (Q * genop)) (p : populator) (w : W) : res (populator * W) :=
  match l with
  | [] => Ok (p, w)
  | (rate, o) :: r =>
      let p0 := Pop (dest p) pos in
      let! (p1, w1) := seq_loop (S (length (dest p0) - pos)) (apply o) rate p0 w in
      seq_all pos r p1 w1
  end.
Lemma apply_seq l p w : apply (Sequential l) p w = seq_all (cur p) l p w.
Proof.
  cbn [BreedModel.apply]. generalize (cur p) as pos. intros pos. revert p w.
  induction l as [|[r o] l IH]; intros p w; cbn [seq_all]; auto.
  destruct (seq_loop _ (apply o) r {| dest := dest p; cur := pos |} w) as [[p1 w1]| | |]; cbn [rbind]; auto.
Qed.
Lemma apply_prop l p w : apply (Proportional l) p w =
  (let! (i, w1) := wheel (map fst l) w in
   match nth_error l i with
   | Some (_, o) => let! (p1, w2) := apply o p w1 in Ok (incr p1, w2)
   | None => UB end).
Proof.
  cbn [BreedModel.apply]. destruct (wheel (map fst l) w) as [[i w1]| | |]; cbn [rbind]; auto.
  revert i. induction l as [|[r o] l IH]; intros i.
  - destruct i; auto.
  - destruct i as [|i]; [reflexivity|]. apply IH.
Qed.

(** *** invariant *)
Definition inv (p : populator) : Prop := cur p <= length (dest p) /\ Forall (fresh_or_copy source) (dest p).
Definition grows (p p' : populator) : Prop := length (dest p) <= length (dest p').

Lemma touch_fresh ch (x x' : I) : (ch = false -> x' = x) -> fresh_or_copy source x -> fresh_or_copy source (touch ch x').
Proof. intros H Hx. destruct ch; simpl; [left; auto|]. rewrite H; auto. Qed.

Lemma Forall_set (P : I -> Prop) l i x : Forall P l -> P x -> Forall P (set l i x).
Proof.
  intros H Hx. apply Forall_forall. intros y Hy. apply In_nth_error in Hy as [k Hk].
  rewrite nth_error_set in Hk. destruct ((k =? i) && (i <? length l))%bool.
  - inversion Hk; subst; auto.
  - rewrite Forall_forall in H. apply H. eapply nth_error_In; eauto.
Qed.
Lemma deref_inv p w p' w' : inv p -> deref p w = Ok (p', w') -> inv p' /\ grows p p' /\ cur p' < length (dest p') /\ cur p <= cur p'.
Proof.
  intros [Hc Hf] H. unfold BreedModel.deref, at_end in H. destruct (Nat.eqb_spec (cur p) (length (dest p))).
  - apply rbind_ok in H as ([x w1] & E & H). inversion H; subst. unfold inv, grows. cbn [dest cur].
    rewrite app_length. cbn [length]. repeat split; try lia. apply Forall_app. split; auto. constructor; auto.
    right. eapply Hsel; eauto.
  - inversion H; subst. unfold inv, grows. repeat split; auto; lia.
Qed.
Lemma store_inv p i x p' : inv p -> fresh_or_copy source x -> store p i x = Ok p' ->
  inv p' /\ length (dest p') = length (dest p) /\ cur p' = cur p.
Proof.
  intros [Hc Hf] Hx H. unfold store in H. apply rbind_ok in H as (d & E & H). apply of_opt_ok, upd_some in E as [Hi ->].
  inversion H; subst. unfold inv. cbn [dest cur]. rewrite set_length. repeat split; auto. apply Forall_set; auto.
Qed.
Lemma incr_inv p : inv p -> inv (incr p) /\ dest (incr p) = dest p /\ cur p <= cur (incr p).
Proof.
  intros [Hc Hf]. unfold incr, at_end. destruct (Nat.eqb_spec (cur p) (length (dest p))); unfold inv; cbn [dest cur];
    repeat split; auto; lia.
Qed.
Lemma current_in p x : current p = Ok x -> inv p -> fresh_or_copy source x.
Proof.
  intros H [_ Hf]. unfold current in H. apply of_opt_ok in H. rewrite Forall_forall in Hf. apply Hf. eapply nth_error_In; eauto.
Qed.

Lemma seq_loop_inv (f : populator -> W -> res (populator * W)) rate :
  (forall p w p' w', inv p -> f p w = Ok (p', w') -> inv p' /\ grows p p') ->
  forall fuel p w p' w', inv p -> seq_loop fuel f rate p w = Ok (p', w') -> inv p' /\ grows p p'.
Proof.
  intros Hf. induction fuel as [|fuel IH]; intros p w p' w' Hi H; cbn [BreedModel.seq_loop] in H; [discriminate|].
  apply rbind_ok in H as ([b w1] & E1 & H). apply rbind_ok in H as ([p2 w2] & E2 & H).
  assert (H2 : inv p2 /\ grows p p2).
  { destruct b; [eapply Hf; eauto|]. inversion E2; subst. split; auto. unfold grows; lia. }
  destruct H2 as [H2 G2].
  set (p3 := if at_end p2 then p2 else incr p2) in *.
  assert (H3 : inv p3 /\ dest p3 = dest p2).
  { unfold p3. destruct (at_end p2); auto. destruct (incr_inv p2 H2) as (A & B & _). auto. }
  destruct H3 as [H3 D3]. unfold grows in *. rewrite <- D3 in G2.
  destruct (at_end p3).
  - inversion H; subst. auto.
  - apply IH in H as [A B]; auto. split; auto. lia.
Qed.

Lemma apply_inv : forall op p w p' w', honest op -> inv p -> apply op p w = Ok (p', w') -> inv p' /\ grows p p'.
Proof.
  induction op as [f|f|f s|f|l Hl|l Hl] using genop_ind'; intros p w p' w' Hh Hi H.
  - cbn [BreedModel.apply] in H. apply rbind_ok in H as ([p1 w1] & E1 & H). apply rbind_ok in H as (x & E2 & H).
    apply rbind_ok in H as ([[x' ch] w2] & E3 & H). apply rbind_ok in H as (p2 & E4 & H). inversion H; subst.
    apply deref_inv in E1 as (I1 & G1 & _); auto. pose proof (current_in _ _ E2 I1) as Hx.
    apply store_inv in E4 as (A & B & _); auto.
    + split; auto. unfold grows in *. lia.
    + apply (touch_fresh ch x x'); [intros ->; eapply Hh; eauto|auto].
  - cbn [BreedModel.apply] in H. apply rbind_ok in H as ([p1 w1] & E1 & H). apply rbind_ok in H as ([y w2] & E5 & H).
    apply rbind_ok in H as (x & E2 & H).
    apply rbind_ok in H as ([[x' ch] w3] & E3 & H). apply rbind_ok in H as (p2 & E4 & H). inversion H; subst.
    apply deref_inv in E1 as (I1 & G1 & _); auto. pose proof (current_in _ _ E2 I1) as Hx.
    apply store_inv in E4 as (A & B & _); auto.
    + split; auto. unfold grows in *. lia.
    + apply (touch_fresh ch x x'); [intros ->; eapply Hh; eauto|auto].
  - cbn [BreedModel.apply] in H. apply rbind_ok in H as ([p1 w1] & E1 & H). apply rbind_ok in H as ([y w2] & E5 & H).
    apply rbind_ok in H as (x & E2 & H).
    apply rbind_ok in H as ([[x' ch] w3] & E3 & H). apply rbind_ok in H as (p2 & E4 & H). inversion H; subst.
    apply deref_inv in E1 as (I1 & G1 & _); auto. pose proof (current_in _ _ E2 I1) as Hx.
    apply store_inv in E4 as (A & B & _); auto.
    + split; auto. unfold grows in *. lia.
    + apply (touch_fresh ch x x'); [intros ->; eapply Hh; eauto|auto].
  - cbn [BreedModel.apply] in H. apply rbind_ok in H as ([p1 w1] & E1 & H). apply rbind_ok in H as ([p2 w2] & E2 & H).
    apply rbind_ok in H as (x & E3 & H). apply rbind_ok in H as (y & E4 & H).
    apply rbind_ok in H as ([[[x' y'] ch] w3] & E5 & H). apply rbind_ok in H as (p3 & E6 & H).
    apply rbind_ok in H as (p4 & E7 & H). inversion H; subst.
    apply deref_inv in E1 as (I1 & G1 & _); auto. destruct (incr_inv p1 I1) as (I1' & D1 & _).
    apply deref_inv in E2 as (I2 & G2 & _); auto. apply of_opt_ok in E3, E4.
    assert (Hx : fresh_or_copy source x) by (eapply (proj1 (Forall_forall _ _) (proj2 I2)); eapply nth_error_In; eauto).
    assert (Hy : fresh_or_copy source y) by (eapply (proj1 (Forall_forall _ _) (proj2 I2)); eapply nth_error_In; eauto).
    apply store_inv in E6 as (I3 & L3 & _); auto; [|apply (touch_fresh ch x x'); [intros ->; destruct (Hh _ _ _ _ _ _ E5); auto|auto]].
    apply store_inv in E7 as (I4 & L4 & _); auto; [|apply (touch_fresh ch y y'); [intros ->; destruct (Hh _ _ _ _ _ _ E5); auto|auto]].
    split; auto. unfold grows in *. rewrite D1 in G2. lia.
  - rewrite apply_seq in H. apply honest_seq in Hh. destruct Hi as [Hc Hf].
    remember (cur p) as pos eqn:Epos.
    assert (Hgen : forall p w p' w', pos <= length (dest p) -> inv p -> seq_all pos l p w = Ok (p', w') -> inv p' /\ grows p p').
    { clear -Hl Hh. induction l as [|[r o] l IH]; intros p w p' w' Hpos Hi H; cbn [seq_all] in H.
      - inversion H; subst. split; auto. unfold grows; lia.
      - inversion Hl; subst. inversion Hh; subst. apply rbind_ok in H as ([p1 w1] & E & H).
        apply seq_loop_inv in E as [A B].
        + unfold grows in B. cbn [dest] in B. apply IH in H as [C D]; auto; [|lia]. split; auto. unfold grows in *. lia.
        + intros q v q' v' Hq Ha. eapply H2; eauto.
        + split; [cbn [dest cur]; auto|cbn [dest]; apply Hi]. }
    eapply Hgen; eauto. split; [lia|auto].
  - rewrite apply_prop in H. apply honest_prop in Hh. apply rbind_ok in H as ([i w1] & E1 & H).
    destruct (nth_error l i) as [[r o]|] eqn:E2; [|discriminate]. apply rbind_ok in H as ([p1 w2] & E3 & H). inversion H; subst.
    apply nth_error_In in E2. rewrite Forall_forall in Hl, Hh.
    destruct (Hl _ E2 _ _ _ _ (Hh _ E2) Hi E3) as [A B].
    destruct (incr_inv p1 A) as (C & D & _). split; auto. unfold grows in *. rewrite D. auto.
Qed.

Lemma breed_loop_inv op target : honest op -> forall fuel p w p' w', inv p ->
  breed_loop source select flip wheel fuel op target p w = Ok (p', w') -> inv p' /\ target <= length (dest p').
Proof.
  intros Hh. induction fuel as [|fuel IH]; intros p w p' w' Hi H; cbn [breed_loop] in H; [discriminate|].
  destruct (Nat.ltb_spec (length (dest p)) target).
  - apply rbind_ok in H as ([p1 w1] & E & H). apply apply_inv in E as [A B]; auto.
    apply IH in H; auto. apply (incr_inv p1 A).
  - inversion H; subst. auto.
Qed.
Lemma general_breeder_spec fuel op h w off w' : honest op ->
  general_breeder source select flip wheel fuel op h w = Ok (off, w') ->
  hm_call h (length source) = Ok (length off) /\ Forall (fresh_or_copy source) off.
Proof.
  intros Hh H. unfold general_breeder in H. apply rbind_ok in H as (target & E1 & H).
  apply rbind_ok in H as ([p w1] & E2 & H). inversion H; subst.
  apply breed_loop_inv in E2 as [[A B] L]; auto; [|split; [auto|constructor]].
  rewrite firstn_length_le by auto. split; auto.
  apply Forall_forall. intros x Hx. rewrite Forall_forall in B. apply B.
  rewrite <- (firstn_skipn target (dest p)). apply in_app_iff; auto.
Qed.

(** *** termination *)
Definition good (p p' : populator) : Prop :=
  grows p p' /\ cur p' <= length (dest p') /\ cur p <= cur p' /\
  (length (dest p) < length (dest p') -> length (dest p') <= S (cur p')).
Hypothesis Tsel : forall w, exists r, select w = Ok r.
Hypothesis Tflip : forall q w, exists r, flip q w = Ok r.
Hypothesis Twheel : forall l w, l <> [] -> exists i w', wheel l w = Ok (i, w') /\ i < length l.

Lemma deref_total p w : cur p <= length (dest p) -> exists p' w', deref p w = Ok (p', w') /\ good p p' /\
  cur p' = cur p /\ cur p' < length (dest p') /\ (at_end p = true -> length (dest p') = S (length (dest p))).
Proof.
  intros Hc. unfold BreedModel.deref, at_end. destruct (Nat.eqb_spec (cur p) (length (dest p))) as [E|E].
  - destruct (Tsel w) as [[x w1] Ex]. rewrite Ex. cbn [rbind]. do 2 eexists. split; [reflexivity|].
    unfold good, grows. cbn [dest cur]. rewrite app_length. cbn [length]. repeat split; intros; lia.
  - exists p, w. split; auto. unfold good, grows. repeat split; intros; try lia.
Qed.
Lemma store_total p i (x : I) : i < length (dest p) -> exists p', store p i x = Ok p' /\
  length (dest p') = length (dest p) /\ cur p' = cur p.
Proof.
  intros Hi. unfold store. rewrite upd_set by auto. cbn [of_opt rbind]. eexists. split; [reflexivity|].
  cbn [dest cur]. rewrite set_length. auto.
Qed.
Lemma current_total (p : populator) : cur p < length (dest p) -> exists x, current p = Ok x.
Proof. intros H. destruct (nth_error_in_some _ _ H) as [x Hx]. exists x. unfold current. rewrite Hx. auto. Qed.

Lemma seq_loop_total (f : populator -> W -> res (populator * W)) rate :
  (forall p w, cur p <= length (dest p) -> exists p' w', f p w = Ok (p', w') /\ good p p') ->
  forall fuel p w, cur p <= length (dest p) -> length (dest p) - cur p < fuel ->
  exists p' w', seq_loop fuel f rate p w = Ok (p', w') /\ grows p p' /\ cur p' = length (dest p').
Proof.
  intros Hf. induction fuel as [|fuel IH]; intros p w Hc Hfu; [lia|]. cbn [BreedModel.seq_loop].
  destruct (Tflip rate w) as [[b w1] Eb]. rewrite Eb. cbn [rbind].
  assert (H2 : exists p2 w2, (if b then f p w1 else Ok (p, w1)) = Ok (p2, w2) /\ good p p2).
  { destruct b; [apply Hf; auto|]. exists p, w1. split; auto. unfold good, grows. repeat split; try lia. }
  destruct H2 as (p2 & w2 & E2 & Hg & Hc2 & Hm & Hgr). rewrite E2. cbn [rbind]. unfold grows in *.
  destruct (at_end p2) eqn:E.
  - rewrite E. exists p2, w2. unfold at_end in E. apply Nat.eqb_eq in E. auto.
  - assert (Ei : incr p2 = Pop (dest p2) (S (cur p2))) by (unfold incr; rewrite E; auto).
    rewrite Ei. unfold at_end in E. apply Nat.eqb_neq in E.
    unfold at_end. cbn [dest cur]. destruct (Nat.eqb_spec (S (cur p2)) (length (dest p2))) as [E3|E3].
    + do 2 eexists. split; [reflexivity|]. cbn [dest cur]. auto.
    + assert (length (dest p2) = length (dest p)).
      { destruct (Nat.eq_dec (length (dest p2)) (length (dest p))); auto. specialize (Hgr ltac:(lia)). lia. }
      destruct (IH (Pop (dest p2) (S (cur p2))) w2) as (p' & w' & E' & G' & C').
      * cbn [dest cur]. lia.
      * cbn [dest cur]. lia.
      * exists p', w'. split; auto. cbn [dest] in G'. split; [lia|auto].
Qed.

Lemma apply_total : forall op, total_op op -> forall p w, cur p <= length (dest p) ->
  exists p' w', apply op p w = Ok (p', w') /\ good p p'.
Proof.
  induction op as [f|f|f s|f|l Hl|l Hl] using genop_ind'; intros Ht p w Hc.
  - cbn [BreedModel.apply]. destruct (deref_total p w Hc) as (p1 & w1 & E1 & G1 & C1 & L1 & _). rewrite E1. cbn [rbind].
    destruct (current_total p1 L1) as [x Ex]. rewrite Ex. cbn [rbind]. destruct (Ht x w1) as [[[x' ch] w2] E2].
    rewrite E2. cbn [rbind]. destruct (store_total p1 (cur p1) (touch ch x') L1) as (p2 & E3 & L3 & C3). rewrite E3. cbn [rbind].
    do 2 eexists. split; [reflexivity|]. unfold good, grows in *. rewrite L3, C3. auto.
  - cbn [BreedModel.apply]. destruct (deref_total p w Hc) as (p1 & w1 & E1 & G1 & C1 & L1 & _). rewrite E1. cbn [rbind].
    destruct (Tsel w1) as [[y w2] Ey]. rewrite Ey. cbn [rbind].
    destruct (current_total p1 L1) as [x Ex]. rewrite Ex. cbn [rbind]. destruct (Ht x y w2) as [[[x' ch] w3] E2].
    rewrite E2. cbn [rbind]. destruct (store_total p1 (cur p1) (touch ch x') L1) as (p2 & E3 & L3 & C3). rewrite E3. cbn [rbind].
    do 2 eexists. split; [reflexivity|]. unfold good, grows in *. rewrite L3, C3. auto.
  - cbn [BreedModel.apply]. destruct Ht as [Ht Hs]. destruct (deref_total p w Hc) as (p1 & w1 & E1 & G1 & C1 & L1 & _). rewrite E1. cbn [rbind].
    destruct (Hs source w1) as [[y w2] Ey]. rewrite Ey. cbn [rbind].
    destruct (current_total p1 L1) as [x Ex]. rewrite Ex. cbn [rbind]. destruct (Ht x y w2) as [[[x' ch] w3] E2].
    rewrite E2. cbn [rbind]. destruct (store_total p1 (cur p1) (touch ch x') L1) as (p2 & E3 & L3 & C3). rewrite E3. cbn [rbind].
    do 2 eexists. split; [reflexivity|]. unfold good, grows in *. rewrite L3, C3. auto.
  - cbn [BreedModel.apply]. destruct (deref_total p w Hc) as (p1 & w1 & E1 & G1 & C1 & L1 & _). rewrite E1. cbn [rbind].
    assert (Ei : incr p1 = Pop (dest p1) (S (cur p1))).
    { unfold incr, at_end. destruct (Nat.eqb_spec (cur p1) (length (dest p1))); [lia|auto]. }
    destruct (deref_total (incr p1) w1) as (p2 & w2 & E2 & G2 & C2 & L2 & _); [rewrite Ei; cbn [dest cur]; lia|].
    rewrite E2. cbn [rbind]. rewrite Ei in *. cbn [dest cur] in *.
    unfold good, grows in *. cbn [dest cur] in *.
    destruct (nth_error_in_some (dest p2) (cur p1)) as [x Ex]; [lia|]. rewrite Ex. cbn [of_opt rbind].
    destruct (nth_error_in_some (dest p2) (cur p2)) as [y Ey]; [lia|]. rewrite Ey. cbn [of_opt rbind].
    destruct (Ht x y w2) as [[[[x' y'] ch] w3] E3]. rewrite E3. cbn [rbind].
    destruct (store_total p2 (cur p1) (touch ch x')) as (p3 & E4 & L4 & C4); [lia|]. rewrite E4. cbn [rbind].
    destruct (store_total p3 (cur p2) (touch ch y')) as (p4 & E5 & L5 & C5); [lia|]. rewrite E5. cbn [rbind].
    do 2 eexists. split; [reflexivity|]. rewrite L5, L4, C5, C4. repeat split; lia.
  - apply total_seq in Ht. rewrite apply_seq.
    assert (Hgen : forall pos p w, pos <= length (dest p) -> exists p' w', seq_all pos l p w = Ok (p', w') /\ grows p p' /\
       ((l = [] /\ p' = p) \/ cur p' = length (dest p'))).
    { clear p w Hc. intros pos. induction l as [|[r o] l IH]; intros p w Hpos; cbn [seq_all].
      - exists p, w. unfold grows. split; auto.
      - inversion Hl as [|? ? Ho Hl']; subst. inversion Ht as [|? ? To Tl]; subst. cbn [snd] in *.
        destruct (seq_loop_total (apply o) r (fun p w => Ho To p w) (S (length (dest p) - pos)) (Pop (dest p) pos) w)
          as (p1 & w1 & E1 & G1 & C1); [cbn [dest cur]; auto|cbn [dest cur]; lia|].
        cbn [dest]. rewrite E1. cbn [rbind]. unfold grows in *. cbn [dest] in G1.
        destruct (IH Hl' Tl p1 w1) as (p' & w' & E' & G' & C'); [lia|]. exists p', w'. split; auto. split; [lia|].
        right. destruct C' as [[-> ->]|C']; auto. }
    destruct (Hgen (cur p) p w Hc) as (p' & w' & E & Gr & C). exists p', w'. split; [exact E|].
    unfold good, grows in *. destruct C as [[_ ->]|C]; repeat split; lia.
  - apply total_prop in Ht as [Hne Ht]. rewrite apply_prop.
    destruct (Twheel (map fst l) w) as (i & w1 & E1 & Hi); [destruct l; [congruence|discriminate]|].
    rewrite E1. cbn [rbind]. rewrite map_length in Hi. destruct (nth_error_in_some l i Hi) as [[r o] E2]. rewrite E2.
    apply nth_error_In in E2. rewrite Forall_forall in Hl, Ht.
    destruct (Hl _ E2 (Ht _ E2) p w1 Hc) as (p1 & w2 & E3 & Gd). cbn [snd] in E3. rewrite E3. cbn [rbind].
    do 2 eexists. split; [reflexivity|].
    unfold good, grows, incr, at_end in *. destruct (Nat.eqb_spec (cur p1) (length (dest p1))); auto.
    cbn [dest cur]. repeat split; lia.
Qed.

Lemma productive_seq l : productive flip (Sequential l : genop) <->
  Exists (fun ro => (forall w, exists w', flip (fst ro) w = Ok (true, w')) /\ productive flip (snd ro)) l.
Proof.
  cbn [productive]. induction l as [|[r o] l IH].
  - split; [intros []|intros H; inversion H].
  - split.
    + intros [H|H]; [left; auto|right; apply IH; auto].
    + intros H. inversion H; subst; [left; auto|right; apply IH; auto].
Qed.
Lemma productive_prop l : productive flip (Proportional l : genop) <-> Forall (fun ro => productive flip (snd ro)) l.
Proof.
  cbn [productive]. induction l as [|[r o] l IH].
  - split; auto.
  - split; [intros [H1 H2]; constructor; [auto|apply IH; auto]|intros H; inversion H; subst; split; [auto|apply IH; auto]].
Qed.
Lemma seq_loop_grows (f : populator -> W -> res (populator * W)) rate :
  (forall p w, cur p <= length (dest p) -> exists p' w', f p w = Ok (p', w') /\ good p p') ->
  forall fuel p w p' w', cur p <= length (dest p) -> length (dest p) - cur p < fuel ->
  seq_loop fuel f rate p w = Ok (p', w') -> grows p p'.
Proof.
  intros Hf fuel p w p' w' Hc Hfu H. destruct (seq_loop_total f rate Hf fuel p w Hc Hfu) as (q & v & E & Gr & _).
  rewrite H in E. inversion E; subst. auto.
Qed.
Lemma seq_loop_productive (f : populator -> W -> res (populator * W)) rate :
  (forall p w, cur p <= length (dest p) -> exists p' w', f p w = Ok (p', w') /\ good p p') ->
  (forall p w p' w', at_end p = true -> f p w = Ok (p', w') -> S (length (dest p)) <= length (dest p')) ->
  (forall w, exists w', flip rate w = Ok (true, w')) ->
  forall p w p' w', at_end p = true ->
  seq_loop (S (length (dest p) - cur p)) f rate p w = Ok (p', w') -> S (length (dest p)) <= length (dest p').
Proof.
  intros Hf Hg Hfl p w p' w' He H. pose proof He as He'. unfold at_end in He'. apply Nat.eqb_eq in He'.
  cbn [BreedModel.seq_loop] in H. destruct (Hfl w) as [w1 E1]. rewrite E1 in H. cbn [rbind] in H.
  apply rbind_ok in H as ([p2 w2] & E2 & H). pose proof (Hg _ _ _ _ He E2) as Hl.
  destruct (Hf p w1 ltac:(lia)) as (q & v & Eq & Gd). rewrite E2 in Eq. inversion Eq; subst q v.
  destruct Gd as (_ & C2 & _ & S2). specialize (S2 ltac:(lia)).
  assert (Hd : forall q : populator, dest (if at_end q then q else incr q) = dest q).
  { intros q. unfold incr. destruct (at_end q); auto. }
  destruct (at_end (if at_end p2 then p2 else incr p2)) eqn:E3.
  - inversion H; subst. rewrite Hd. auto.
  - exfalso. unfold incr in E3. destruct (at_end p2) eqn:E4.
    + congruence.
    + unfold at_end in E3, E4. cbn [dest cur] in E3. apply Nat.eqb_neq in E3, E4. lia.
Qed.
Lemma productive_grows : forall op, total_op op -> productive flip op -> forall p w p' w',
  at_end p = true -> apply op p w = Ok (p', w') -> S (length (dest p)) <= length (dest p').
Proof.
  assert (Hd : forall p w p' w', at_end p = true -> deref p w = Ok (p', w') -> length (dest p') = S (length (dest p))).
  { intros p w p' w' He H. unfold BreedModel.deref in H. rewrite He in H. apply rbind_ok in H as ([x w1] & E & H).
    inversion H; subst. cbn [dest]. rewrite app_length. simpl. lia. }
  assert (Hst : forall p i (x : I) p', store p i x = Ok p' -> length (dest p') = length (dest p)).
  { intros p i x p' H. unfold store in H. apply rbind_ok in H as (d & E & H). apply of_opt_ok, upd_some in E as [_ ->].
    inversion H; subst. cbn [dest]. apply set_length. }
  assert (Hdg : forall p w p' w', deref p w = Ok (p', w') -> length (dest p) <= length (dest p')).
  { intros p w p' w' H. unfold BreedModel.deref in H. destruct (at_end p); [|inversion H; subst; auto].
    apply rbind_ok in H as ([x w1] & E & H). inversion H; subst. cbn [dest]. rewrite app_length. lia. }
  induction op as [f|f|f s|f|l Hl|l Hl] using genop_ind'; intros Ht Hp p w p' w' He H.
  - cbn [BreedModel.apply] in H. apply rbind_ok in H as ([p1 w1] & E1 & H). apply rbind_ok in H as (x & E2 & H).
    apply rbind_ok in H as ([[x' ch] w2] & E3 & H). apply rbind_ok in H as (p2 & E4 & H). inversion H; subst.
    apply Hd in E1; auto. apply Hst in E4. lia.
  - cbn [BreedModel.apply] in H. apply rbind_ok in H as ([p1 w1] & E1 & H). apply rbind_ok in H as ([y w2] & E5 & H).
    apply rbind_ok in H as (x & E2 & H).
    apply rbind_ok in H as ([[x' ch] w3] & E3 & H). apply rbind_ok in H as (p2 & E4 & H). inversion H; subst.
    apply Hd in E1; auto. apply Hst in E4. lia.
  - cbn [BreedModel.apply] in H. apply rbind_ok in H as ([p1 w1] & E1 & H). apply rbind_ok in H as ([y w2] & E5 & H).
    apply rbind_ok in H as (x & E2 & H).
    apply rbind_ok in H as ([[x' ch] w3] & E3 & H). apply rbind_ok in H as (p2 & E4 & H). inversion H; subst.
    apply Hd in E1; auto. apply Hst in E4. lia.
  - cbn [BreedModel.apply] in H. apply rbind_ok in H as ([p1 w1] & E1 & H). apply rbind_ok in H as ([p2 w2] & E2 & H).
    apply rbind_ok in H as (x & E3 & H). apply rbind_ok in H as (y & E4 & H).
    apply rbind_ok in H as ([[[x' y'] ch] w3] & E5 & H). apply rbind_ok in H as (p3 & E6 & H).
    apply rbind_ok in H as (p4 & E7 & H). inversion H; subst.
    apply Hd in E1; auto. apply Hst in E6, E7. apply Hdg in E2.
    assert (dest (incr p1) = dest p1) by (unfold incr; destruct (at_end p1); auto). rewrite H0 in E2. lia.
  - apply productive_seq in Hp. apply total_seq in Ht. rewrite apply_seq in H.
    unfold at_end in He. apply Nat.eqb_eq in He.
    remember (cur p) as pos. remember (length (dest p)) as n eqn:En.
    assert (Hgen : forall p w p' w', n <= length (dest p) -> (S n <= length (dest p) \/
       Exists (fun ro => (forall w, exists w', flip (fst ro) w = Ok (true, w')) /\ productive flip (snd ro)) l) ->
       seq_all pos l p w = Ok (p', w') -> S n <= length (dest p')).
    { clear p w p' w' H Hp En Heqpos. induction l as [|[r o] l IH]; intros p w p' w' Hn Hor H; cbn [seq_all] in H.
      - inversion H; subst. destruct Hor as [Hor|Hor]; auto. inversion Hor.
      - inversion Hl as [|? ? Ho Hl']; subst. inversion Ht as [|? ? To Tl]; subst. cbn [snd fst] in *.
        apply rbind_ok in H as ([p1 w1] & E1 & H). cbn [dest] in E1.
        pose proof (seq_loop_grows (apply o) r (fun p w => apply_total o To p w) _ (Pop (dest p) n) _ _ _ Hn
                      (Nat.lt_succ_diag_r _) E1) as Gr.
        unfold grows in Gr. cbn [dest] in Gr.
        apply (IH Hl' Tl p1 w1 p' w'); [lia| |exact H].
        destruct (Nat.le_gt_cases (S n) (length (dest p))) as [Hlt|Hge]; [left; lia|].
        assert (length (dest p) = n) by lia.
        destruct Hor as [Hor|Hor]; [left; lia|].
        inversion Hor as [? ? [Hfl Hpo]|]; subst; [|right; auto]. cbn [fst snd] in *.
        left. apply (seq_loop_productive (apply o) r (fun p w => apply_total o To p w) (Ho To Hpo) Hfl
                       (Pop (dest p) (length (dest p))) w p1 w1); [|exact E1].
        unfold at_end. cbn [dest cur]. apply Nat.eqb_refl. }
    eapply Hgen; eauto. lia.
  - apply productive_prop in Hp. apply total_prop in Ht as [_ Ht]. rewrite apply_prop in H.
    apply rbind_ok in H as ([i w1] & E1 & H).
    destruct (nth_error l i) as [[r o]|] eqn:E2; [|discriminate]. apply rbind_ok in H as ([p1 w2] & E3 & H). inversion H; subst.
    apply nth_error_In in E2. rewrite Forall_forall in Hl, Hp, Ht.
    specialize (Hl _ E2 (Ht _ E2) (Hp _ E2) _ _ _ _ He E3).
    assert (dest (incr p1) = dest p1) as -> by (unfold incr; destruct (at_end p1); auto). exact Hl.
Qed.

Lemma breed_loop_total op target : total_op op -> productive flip op -> forall fuel p w,
  at_end p = true -> target - length (dest p) < fuel ->
  exists p' w', breed_loop source select flip wheel fuel op target p w = Ok (p', w').
Proof.
  intros Ht Hp. induction fuel as [|fuel IH]; intros p w He Hf; [lia|]. cbn [breed_loop].
  destruct (Nat.ltb_spec (length (dest p)) target); [|eauto].
  pose proof He as He'. unfold at_end in He'. apply Nat.eqb_eq in He'.
  destruct (apply_total op Ht p w ltac:(lia)) as (p1 & w1 & E & Gd). rewrite E. cbn [rbind].
  pose proof (productive_grows op Ht Hp p w p1 w1 He E) as Hl.
  destruct Gd as (_ & C2 & _ & S2). specialize (S2 ltac:(lia)).
  assert (Hd : dest (incr p1) = dest p1) by (unfold incr; destruct (at_end p1); auto).
  apply IH; [|rewrite Hd; lia].
  unfold incr. destruct (at_end p1) eqn:E3; auto. unfold at_end in *. cbn [dest cur]. apply Nat.eqb_neq in E3. apply Nat.eqb_eq. lia.
Qed.
Lemma general_breeder_total op h target w fuel : total_op op -> productive flip op ->
  hm_call h (length source) = Ok target -> target < fuel ->
  exists off w', general_breeder source select flip wheel fuel op h w = Ok (off, w').
Proof.
  intros Ht Hp Eh Hf. unfold general_breeder. rewrite Eh. cbn [rbind].
  destruct (breed_loop_total op target Ht Hp fuel (Pop [] 0) w) as (p & w' & E); [reflexivity|cbn [dest length]; lia|].
  rewrite E. cbn [rbind]. eauto.
Qed.
End Ops.
End Breed.
