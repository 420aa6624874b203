(** A breeder whose operators keep a property of individuals gives offspring with it (C149, C150):
    BreedProofs.v with any property in place of "fresh or a copy". *)
From Coq Require Import List Arith Lia Bool QArith.
From Verif Require Import Lib Outcome PopModel BreedModel BreedSpec BreedProofs.
Import ListNotations.
Close Scope Q_scope.
Open Scope nat_scope.

Section Keeps.
Context {G F W : Type}.
Notation I := (indiv G F).
Notation genop := (@genop G F W).
Notation populator := (@populator G F).
Variable P : I -> Prop.

(** with any mate *)
Fixpoint keeps (op : genop) : Prop :=
  match op with
  | MonGen f => forall x w x' ch w', P x -> f x w = Ok (x', ch, w') -> P (touch ch x')
  | BinGen f => forall x y w x' ch w', P x -> f x y w = Ok (x', ch, w') -> P (touch ch x')
  | SelBinGen f _ => forall x y w x' ch w', P x -> f x y w = Ok (x', ch, w') -> P (touch ch x')
  | QuadGen f => forall x y w x' y' ch w', P x -> P y -> f x y w = Ok (x', y', ch, w') -> P (touch ch x') /\ P (touch ch y')
  | Sequential l => (fix all (l : list (Q * genop)) := match l with [] => True | (_, o) :: r => keeps o /\ all r end) l
  | Proportional l => (fix all (l : list (Q * genop)) := match l with [] => True | (_, o) :: r => keeps o /\ all r end) l
  end.
Lemma keeps_seq l : keeps (Sequential l : genop) <-> Forall (fun ro => keeps (snd ro)) l.
Proof.
  cbn [keeps]. induction l as [|[r o] l IH].
  - split; auto.
  - split; [intros [H1 H2]; constructor; [auto|apply IH; auto]|intros H; inversion H; subst; split; [auto|apply IH; auto]].
Qed.
Lemma keeps_prop l : keeps (Proportional l : genop) <-> Forall (fun ro => keeps (snd ro)) l.
Proof. exact (keeps_seq l). Qed.

Section Ops.
Variable source : list I.
Variable select : W -> res (I * W).
Variable flip : Q -> W -> res (bool * W).
Variable wheel : list Q -> W -> res (nat * W).
Hypothesis Hsel : forall w x w', select w = Ok (x, w') -> P x.

Notation apply := (BreedModel.apply source select flip wheel).
Notation seq_loop := (BreedModel.seq_loop flip).
Notation deref := (BreedModel.deref select).
Notation seq_all := (seq_all source select flip wheel).

(** *** invariant *)
Definition inv (p : populator) : Prop := cur p <= length (dest p) /\ Forall (P) (dest p).
Definition grows (p p' : populator) : Prop := length (dest p) <= length (dest p').


Lemma Forall_set l i x : Forall P l -> P x -> Forall P (set l i x).
Proof.
  intros H Hx. apply Forall_forall. intros y Hy. apply In_nth_error in Hy as [k Hk].
  rewrite nth_error_set in Hk. destruct ((k =? i) && (i <? length l))%bool.
  - inversion Hk; subst; auto.
  - rewrite Forall_forall in H. apply H. eapply nth_error_In; eauto.
Qed.
Lemma deref_inv p w p' w' : inv p -> deref p w = Ok (p', w') -> inv p' /\ grows p p' /\ cur p' < length (dest p') /\ cur p <= cur p'.
Proof.
  intros [Hc Hf] H. unfold BreedModel.deref, at_end in H. destruct (Nat.eqb_spec (cur p) (length (dest p))).
  - apply rbind_ok in H as ([x w1] & E & H). inversion H; subst. unfold inv, grows. cbn [dest cur].
    rewrite app_length. cbn [length]. repeat split; try lia. apply Forall_app. split; auto. constructor; auto.
    eapply Hsel; eauto.
  - inversion H; subst. unfold inv, grows. repeat split; auto; lia.
Qed.
Lemma store_inv p i x p' : inv p -> P x -> store p i x = Ok p' ->
  inv p' /\ length (dest p') = length (dest p) /\ cur p' = cur p.
Proof.
  intros [Hc Hf] Hx H. unfold store in H. apply rbind_ok in H as (d & E & H). apply of_opt_ok, upd_some in E as [Hi ->].
  inversion H; subst. unfold inv. cbn [dest cur]. rewrite set_length. repeat split; auto. apply Forall_set; auto.
Qed.
Lemma incr_inv p : inv p -> inv (incr p) /\ dest (incr p) = dest p /\ cur p <= cur (incr p).
Proof.
  intros [Hc Hf]. unfold incr, at_end. destruct (Nat.eqb_spec (cur p) (length (dest p))); unfold inv; cbn [dest cur];
    repeat split; auto; lia.
Qed.
Lemma current_in p x : current p = Ok x -> inv p -> P x.
Proof.
  intros H [_ Hf]. unfold current in H. apply of_opt_ok in H. rewrite Forall_forall in Hf. apply Hf. eapply nth_error_In; eauto.
Qed.

Lemma seq_loop_inv (f : populator -> W -> res (populator * W)) rate :
  (forall p w p' w', inv p -> f p w = Ok (p', w') -> inv p' /\ grows p p') ->
  forall fuel p w p' w', inv p -> seq_loop fuel f rate p w = Ok (p', w') -> inv p' /\ grows p p'.
Proof.
  intros Hf. induction fuel as [|fuel IH]; intros p w p' w' Hi H; cbn [BreedModel.seq_loop] in H; [discriminate|].
  apply rbind_ok in H as ([b w1] & E1 & H). apply rbind_ok in H as ([p2 w2] & E2 & H).
  assert (H2 : inv p2 /\ grows p p2).
  { destruct b; [eapply Hf; eauto|]. inversion E2; subst. split; auto. unfold grows; lia. }
  destruct H2 as [H2 G2].
  set (p3 := if at_end p2 then p2 else incr p2) in *.
  assert (H3 : inv p3 /\ dest p3 = dest p2).
  { unfold p3. destruct (at_end p2); auto. destruct (incr_inv p2 H2) as (A & B & _). auto. }
  destruct H3 as [H3 D3]. unfold grows in *. rewrite <- D3 in G2.
  destruct (at_end p3).
  - inversion H; subst. auto.
  - apply IH in H as [A B]; auto. split; auto. lia.
Qed.

Lemma apply_inv : forall op p w p' w', keeps op -> inv p -> apply op p w = Ok (p', w') -> inv p' /\ grows p p'.
Proof.
  induction op as [f|f|f s|f|l Hl|l Hl] using genop_ind'; intros p w p' w' Hh Hi H.
  - cbn [BreedModel.apply] in H. apply rbind_ok in H as ([p1 w1] & E1 & H). apply rbind_ok in H as (x & E2 & H).
    apply rbind_ok in H as ([[x' ch] w2] & E3 & H). apply rbind_ok in H as (p2 & E4 & H). inversion H; subst.
    apply deref_inv in E1 as (I1 & G1 & _); auto. pose proof (current_in _ _ E2 I1) as Hx.
    apply store_inv in E4 as (A & B & _); auto.
    + split; auto. unfold grows in *. lia.
    + eapply Hh; eauto.
  - cbn [BreedModel.apply] in H. apply rbind_ok in H as ([p1 w1] & E1 & H). apply rbind_ok in H as ([y w2] & E5 & H).
    apply rbind_ok in H as (x & E2 & H).
    apply rbind_ok in H as ([[x' ch] w3] & E3 & H). apply rbind_ok in H as (p2 & E4 & H). inversion H; subst.
    apply deref_inv in E1 as (I1 & G1 & _); auto. pose proof (current_in _ _ E2 I1) as Hx.
    apply store_inv in E4 as (A & B & _); auto.
    + split; auto. unfold grows in *. lia.
    + eapply Hh; eauto.
  - cbn [BreedModel.apply] in H. apply rbind_ok in H as ([p1 w1] & E1 & H). apply rbind_ok in H as ([y w2] & E5 & H).
    apply rbind_ok in H as (x & E2 & H).
    apply rbind_ok in H as ([[x' ch] w3] & E3 & H). apply rbind_ok in H as (p2 & E4 & H). inversion H; subst.
    apply deref_inv in E1 as (I1 & G1 & _); auto. pose proof (current_in _ _ E2 I1) as Hx.
    apply store_inv in E4 as (A & B & _); auto.
    + split; auto. unfold grows in *. lia.
    + eapply Hh; eauto.
  - cbn [BreedModel.apply] in H. apply rbind_ok in H as ([p1 w1] & E1 & H). apply rbind_ok in H as ([p2 w2] & E2 & H).
    apply rbind_ok in H as (x & E3 & H). apply rbind_ok in H as (y & E4 & H).
    apply rbind_ok in H as ([[[x' y'] ch] w3] & E5 & H). apply rbind_ok in H as (p3 & E6 & H).
    apply rbind_ok in H as (p4 & E7 & H). inversion H; subst.
    apply deref_inv in E1 as (I1 & G1 & _); auto. destruct (incr_inv p1 I1) as (I1' & D1 & _).
    apply deref_inv in E2 as (I2 & G2 & _); auto. apply of_opt_ok in E3, E4.
    assert (Hx : P x) by (eapply (proj1 (Forall_forall _ _) (proj2 I2)); eapply nth_error_In; eauto).
    assert (Hy : P y) by (eapply (proj1 (Forall_forall _ _) (proj2 I2)); eapply nth_error_In; eauto).
    apply store_inv in E6 as (I3 & L3 & _); auto; [|destruct (Hh _ _ _ _ _ _ _ Hx Hy E5); auto].
    apply store_inv in E7 as (I4 & L4 & _); auto; [|destruct (Hh _ _ _ _ _ _ _ Hx Hy E5); auto].
    split; auto. unfold grows in *. rewrite D1 in G2. lia.
  - rewrite apply_seq in H. apply keeps_seq in Hh. destruct Hi as [Hc Hf].
    remember (cur p) as pos eqn:Epos.
    assert (Hgen : forall p w p' w', pos <= length (dest p) -> inv p -> seq_all pos l p w = Ok (p', w') -> inv p' /\ grows p p').
    { clear -Hl Hh. induction l as [|[r o] l IH]; intros p w p' w' Hpos Hi H; cbn [seq_all] in H.
      - inversion H; subst. split; auto. unfold grows; lia.
      - inversion Hl; subst. inversion Hh; subst. apply rbind_ok in H as ([p1 w1] & E & H).
        apply seq_loop_inv in E as [A B].
        + unfold grows in B. cbn [dest] in B. apply IH in H as [C D]; auto; [|lia]. split; auto. unfold grows in *. lia.
        + intros q v q' v' Hq Ha. eapply H2; eauto.
        + split; [cbn [dest cur]; auto|cbn [dest]; apply Hi]. }
    eapply Hgen; eauto. split; [lia|auto].
  - rewrite apply_prop in H. apply keeps_prop in Hh. apply rbind_ok in H as ([i w1] & E1 & H).
    destruct (nth_error l i) as [[r o]|] eqn:E2; [|discriminate]. apply rbind_ok in H as ([p1 w2] & E3 & H). inversion H; subst.
    apply nth_error_In in E2. rewrite Forall_forall in Hl, Hh.
    destruct (Hl _ E2 _ _ _ _ (Hh _ E2) Hi E3) as [A B].
    destruct (incr_inv p1 A) as (C & D & _). split; auto. unfold grows in *. rewrite D. auto.
Qed.

Lemma breed_loop_inv op target : keeps op -> forall fuel p w p' w', inv p ->
  breed_loop source select flip wheel fuel op target p w = Ok (p', w') -> inv p' /\ target <= length (dest p').
Proof.
  intros Hh. induction fuel as [|fuel IH]; intros p w p' w' Hi H; cbn [breed_loop] in H; [discriminate|].
  destruct (Nat.ltb_spec (length (dest p)) target).
  - apply rbind_ok in H as ([p1 w1] & E & H). apply apply_inv in E as [A B]; auto.
    apply IH in H; auto. apply (incr_inv p1 A).
  - inversion H; subst. auto.
Qed.
Lemma general_breeder_keeps fuel op h w off w' : keeps op ->
  general_breeder source select flip wheel fuel op h w = Ok (off, w') ->
  hm_call h (length source) = Ok (length off) /\ Forall (P) off.
Proof.
  intros Hh H. unfold general_breeder in H. apply rbind_ok in H as (target & E1 & H).
  apply rbind_ok in H as ([p w1] & E2 & H). inversion H; subst.
  apply breed_loop_inv in E2 as [[A B] L]; auto; [|split; [auto|constructor]].
  rewrite firstn_length_le by auto. split; auto.
  apply Forall_forall. intros x Hx. rewrite Forall_forall in B. apply B.
  rewrite <- (firstn_skipn target (dest p)). apply in_app_iff; auto.
Qed.

End Ops.
End Keeps.

(** operators that answer "no change" only when they leave their argument alone keep what is true of
    every fresh individual *)
Lemma honest_keeps {G F W} (P : indiv G F -> Prop) (op : genop (G:=G) (F:=F) (W:=W)) : (forall g, P (Ind g None)) -> honest op -> keeps P op.
Proof.
  intros H0. induction op as [f|f|f s|f|l Hl|l Hl] using genop_ind'; intros Hh.
  - intros x w x' [|] w' Hx E; cbn; [apply H0|]. rewrite (Hh _ _ _ _ E). auto.
  - intros x y w x' [|] w' Hx E; cbn; [apply H0|]. rewrite (Hh _ _ _ _ _ E). auto.
  - intros x y w x' [|] w' Hx E; cbn; [apply H0|]. rewrite (Hh _ _ _ _ _ E). auto.
  - intros x y w x' y' [|] w' Hx Hy E; cbn; [split; apply H0|]. destruct (Hh _ _ _ _ _ _ E) as [-> ->]. auto.
  - apply keeps_seq. apply honest_seq in Hh. rewrite Forall_forall in *. auto.
  - apply keeps_prop. apply honest_prop in Hh. rewrite Forall_forall in *. auto.
Qed.
