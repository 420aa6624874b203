(** Proofs about the fitness classes (C27, C66). *)
From Coq Require Import List Bool Arith Lia Permutation.
From Verif Require Import Outcome Lib OrderSpec OrderLemmas FitModel.
Import ListNotations.

Section Fit.
Context {V : Type}.
Variable cmp : V -> V -> bool.
Variable veq : V -> V -> bool.

Definition set_up (d : dual V) : Prop := initialised d = true.
Definition lt_of (a b : dual V) : bool := match d_lt cmp a b with Ok x => x | _ => false end.

Lemma d_lt_ok a b : set_up a -> set_up b -> d_lt cmp a b = Ok (lt_of a b).
Proof.
  unfold set_up, lt_of, d_lt, is_feasible. intros -> ->. cbn [rbind].
  destruct (feasible a), (feasible b); reflexivity.
Qed.
Lemma d_lt_cases a b : set_up a -> set_up b ->
  lt_of a b = match feasible a, feasible b with
              | true, false => false
              | false, true => true
              | _, _ => cmp (value a) (value b)
              end.
Proof.
  unfold set_up, lt_of, d_lt, is_feasible. intros -> ->. cbn [rbind].
  destruct (feasible a), (feasible b); reflexivity.
Qed.
Lemma lt_of_swo : strict_weak_order cmp -> strict_weak_order (fun a b : V * bool => lt_of (dual_of_pair (fst a) (snd a)) (dual_of_pair (fst b) (snd b))).
Proof.
  intros Hs. split; [|split].
  - intros [v f]. rewrite d_lt_cases by reflexivity. cbn. destruct f; apply (swo_irrefl _ Hs).
  - intros [v f] [w g] [x h]. rewrite !d_lt_cases by reflexivity. cbn.
    destruct f, g, h; try discriminate; auto; apply (swo_trans _ Hs).
  - intros [v f] [w g] [x h]. rewrite !d_lt_cases by reflexivity. cbn.
    destruct f, g, h; try discriminate; auto; apply (swo_ntrans _ Hs).
Qed.

Lemma split_fold {G} (pop : list (G * dual V)) : forall f u f' u',
  fold_left split_step pop (Ok (f, u)) = Ok (f', u') ->
  f' = f ++ filter (fun x => feasible (snd x)) pop /\ u' = u ++ filter (fun x => negb (feasible (snd x))) pop /\
  Forall (fun x => set_up (snd x)) pop.
Proof.
  induction pop as [|x pop IH]; intros f u f' u' H; cbn [fold_left filter] in *.
  - rewrite !app_nil_r. split; [congruence|]. split; [congruence|constructor].
  - unfold split_step at 2 in H. cbn [rbind] in H. unfold is_feasible in H.
    destruct (initialised (snd x)) eqn:Ei; cbn [rbind] in H.
    + destruct (feasible (snd x)) eqn:Ef; cbn [negb].
      * apply IH in H as (-> & -> & Hf). rewrite <- !app_assoc. repeat split; auto.
      * apply IH in H as (-> & -> & Hf). rewrite <- !app_assoc. repeat split; auto.
    + exfalso. clear IH. induction pop as [|y pop IHp]; cbn [fold_left] in H; [discriminate|]. apply IHp. exact H.
Qed.
Lemma split_total {G} (pop : list (G * dual V)) : Forall (fun x => set_up (snd x)) pop -> forall f u,
  exists f' u', fold_left split_step pop (Ok (f, u)) = Ok (f', u').
Proof.
  induction 1 as [|x pop Hx Hp IH]; intros f u; cbn [fold_left]; [eauto|].
  unfold split_step at 2. cbn [rbind]. unfold is_feasible. rewrite Hx. cbn [rbind]. destruct (feasible (snd x)); apply IH.
Qed.
Lemma filter_perm {A} (p : A -> bool) l : Permutation l (filter p l ++ filter (fun x => negb (p x)) l).
Proof.
  induction l as [|x l IH]; cbn [filter]; auto. destruct (p x); cbn [negb]; [constructor; auto|].
  etransitivity; [constructor; exact IH|]. apply Permutation_middle.
Qed.

Variables vadd vsub vdiv : V -> V -> V.
Lemma sum_spec (l : list (dual V)) : forall s, Forall set_up l ->
  let r := fold_left (fun a x => d_op_assign vadd a x) l s in
  value r = fold_left vadd (map value l) (value s) /\
  (feasible r = true <-> feasible s = true /\ Forall (fun x => feasible x = true) l) /\
  (initialised r = true <-> l <> [] \/ initialised s = true).
Proof.
  induction l as [|x l IH]; intros s Hs; cbn [fold_left map].
  - split; auto. split; [intuition; constructor|intuition congruence].
  - inversion Hs as [|? ? Hx Hl]; subst. destruct (IH (d_op_assign vadd s x) Hl) as (I1 & I2 & I3). cbv zeta in *.
    split; [exact I1|]. rewrite I2, I3. cbn. rewrite andb_true_iff. unfold set_up in Hx. rewrite Hx.
    split; [|intuition congruence]. split.
    + intros [[A B] C]. split; auto.
    + intros [A C]. inversion C; subst. auto.
Qed.

Lemma average_spec (l : list (dual V)) zero size :
  average vadd vdiv zero size l = Dual (vdiv (fold_left vadd (map value l) zero) size) false false.
Proof.
  unfold average. change (vadd : V -> V -> V) with vadd.
  assert (H : forall s, initialised s = false -> feasible s = false ->
    fold_left (sum_fitness vadd) l s = Dual (fold_left vadd (map value l) (value s)) false false).
  { induction l as [|x l IH]; intros [v f i] Hi Hf; cbn in *; [congruence|]. rewrite IH; reflexivity. }
  rewrite H by reflexivity. reflexivity.
Qed.

Variable text : Type.
Variable unnamed : text.
Lemma resize_length {A} (l : list A) n d : length (resize l n d) = n.
Proof. unfold resize. rewrite app_length, firstn_length, repeat_length. lia. Qed.
Lemma upd_none {A} (l : list A) i x : length l <= i -> upd l i x = None.
Proof. revert i. induction l as [|y l IH]; intros [|i] H; simpl in *; auto; try lia. rewrite IH by lia. auto. Qed.
Lemma set_description_spec (t : list text) i d :
  set_description _ unnamed t i d = if i <? length t then Ok (set t i d) else UB.
Proof.
  unfold set_description. destruct (i <? length t) eqn:E; auto.
  rewrite upd_none; auto. rewrite resize_length. lia.
Qed.
Lemma asm_lt_swo : strict_weak_order cmp ->
  strict_weak_order (fun a b : V * list V => asm_lt cmp (fst a :: snd a) (fst b :: snd b)).
Proof. intros H. exact (swo_preimage (fun a : V * list V => fst a) cmp H). Qed.
End Fit.
